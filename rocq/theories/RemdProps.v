(** Theorems of record about replica exchange (C40, C41, C42, C87). *)
Require Import Reals List Arith Lia Lra Psatz Permutation.
From Verif Require Import RSum RemdModel.
Import ListNotations.
Local Open Scope R_scope.

Arguments scale : simpl never.

(** ** Swapping two ensembles *)

Lemma dist_sym a b : dist a b = dist b a.
Proof.
  unfold dist. f_equal. revert b. induction a as [|x a IH]; intros [|y b]; cbn [combine map Rsuml]; try easy.
  rewrite IH. cbn [fst snd]. ring.
Qed.
Lemma dist_same a : dist a a = 0.
Proof.
  unfold dist. replace (Rsuml _) with 0; [apply sqrt_0|]. induction a as [|x a IH]; cbn [combine map Rsuml fst snd]; [easy|]. rewrite <- IH. ring.
Qed.
Lemma leqb_true a b : leqb a b = true -> a = b.
Proof. unfold leqb. destruct list_eq_dec; [easy|discriminate]. Qed.
Definition close (a b : list R) : bool := if Rlt_dec (/ 10 ^ 10) (dist a b) then false else true.
Definition comparable (e1 e2 : ens) : Prop := length (bweights e1) = length (bweights e2) /\ length (hweights e1) = length (hweights e2).
(** e1 with everything of e2, except a stress that is almost the same *)
Definition takes (e1 e2 : ens) : ens :=
  mkens (temp e2) (pext e2) (if close (stressext e1) (stressext e2) then stressext e1 else stressext e2) (bweights e2) (hweights e2).

Lemma swap_form e1 e2 : comparable e1 e2 -> ensemble_swap e1 e2 = Some (takes e1 e2, takes e2 e1).
Proof.
  intros [B H]. unfold ensemble_swap, takes, close. rewrite (dist_sym (stressext e2)).
  destruct e1 as [t1 p1 s1 b1 h1]. destruct e2 as [t2 p2 s2 b2 h2]. cbn [temp pext stressext bweights hweights] in *.
  unfold swap_temp. cbn [temp pext stressext bweights hweights].
  destruct (Req_EM_T t1 t2) as [-> |]; unfold swap_pext; cbn [temp pext stressext bweights hweights];
    (destruct (Req_EM_T p1 p2) as [-> |]; unfold swap_stress; cbn [temp pext stressext bweights hweights];
     (destruct Rlt_dec; cbn [fst snd bweights hweights]; rewrite B, H, !Nat.eqb_refl; cbn [negb]; unfold swap_bweights; cbn [temp pext stressext bweights hweights];
       (destruct (leqb b1 b2) eqn:E1; [apply leqb_true in E1 as -> |]; unfold swap_hweights; cbn [temp pext stressext bweights hweights];
         (destruct (leqb h1 h2) eqn:E2; [apply leqb_true in E2 as -> |]; reflexivity)))).
Qed.
Lemma swap_none e1 e2 : ensemble_swap e1 e2 <> None -> comparable e1 e2.
Proof.
  unfold ensemble_swap. destruct e1 as [t1 p1 s1 b1 h1]. destruct e2 as [t2 p2 s2 b2 h2]. unfold comparable. cbn [bweights hweights].
  assert (X : bweights (fst (swap_stress (swap_pext (swap_temp (mkens t1 p1 s1 b1 h1) (mkens t2 p2 s2 b2 h2))))) = b1 /\
     bweights (snd (swap_stress (swap_pext (swap_temp (mkens t1 p1 s1 b1 h1) (mkens t2 p2 s2 b2 h2))))) = b2 /\
     hweights (fst (swap_stress (swap_pext (swap_temp (mkens t1 p1 s1 b1 h1) (mkens t2 p2 s2 b2 h2))))) = h1 /\
     hweights (snd (swap_stress (swap_pext (swap_temp (mkens t1 p1 s1 b1 h1) (mkens t2 p2 s2 b2 h2))))) = h2).
  { unfold swap_temp. cbn. destruct (Req_EM_T t1 t2); unfold swap_pext; cbn; destruct (Req_EM_T p1 p2); unfold swap_stress; cbn; destruct Rlt_dec; repeat split. }
  destruct X as (-> & -> & -> & ->).
  destruct (Nat.eqb_spec (length b1) (length b2)); [|easy]. destruct (Nat.eqb_spec (length h1) (length h2)); easy.
Qed.
(** Ensembles with different numbers of weights are refused, all others are swapped... *)
Theorem swap_defined e1 e2 : ensemble_swap e1 e2 <> None <-> comparable e1 e2.
Proof. split; [apply swap_none|]. intros H. rewrite swap_form by easy. discriminate. Qed.
(** ...completely, if the stresses are equal or differ clearly... *)
Theorem swap_complete_partial e1 e2 : comparable e1 e2 ->
  stressext e1 = stressext e2 \/ / 10 ^ 10 < dist (stressext e1) (stressext e2) ->
  ensemble_swap e1 e2 = Some (e2, e1).
Proof.
  intros C H. rewrite swap_form by easy. unfold takes, close. rewrite (dist_sym (stressext e2)).
  assert (E : forall e, mkens (temp e) (pext e) (stressext e) (bweights e) (hweights e) = e) by (intros []; reflexivity).
  destruct Rlt_dec; [now rewrite !E|]. destruct H as [H|]; [|contradiction]. rewrite H, E. rewrite <- H at 1. rewrite E. easy.
Qed.
(** ...but not a small difference in stress. *)
Theorem swap_complete_refuted : exists e1 e2, comparable e1 e2 /\ exists e1' e2', ensemble_swap e1 e2 = Some (e1', e2') /\ stressext e1' <> stressext e2.
Proof.
  exists (mkens 1 0 [0] [] []), (mkens 2 0 [/ 10 ^ 11] [] []). assert (C : comparable (mkens 1 0 [0] [] []) (mkens 2 0 [/ 10 ^ 11] [] [])) by easy.
  split; [easy|]. do 2 eexists. split; [now apply swap_form|]. unfold takes, close, dist. cbn [temp pext stressext bweights hweights combine map Rsuml fst snd].
  assert (P : 0 < / 10 ^ 11) by (apply Rinv_0_lt_compat; apply pow_lt; lra).
  assert (E : sqrt ((0 - / 10 ^ 11) ^ 2 + 0) = / 10 ^ 11).
  { replace ((0 - / 10 ^ 11) ^ 2 + 0) with (/ 10 ^ 11 * / 10 ^ 11) by ring. apply sqrt_square. lra. }
  rewrite E. destruct Rlt_dec as [L|_].
  - assert (/ 10 ^ 11 < / 10 ^ 10); [|lra]. apply Rinv_lt_contravar; [|apply Rlt_pow; lra || lia]. apply Rmult_lt_0_compat; apply pow_lt; lra.
  - intros Q. injection Q as Q. lra.
Qed.
Lemma takes_close e1 e2 : close (stressext (takes e1 e2)) (stressext (takes e2 e1)) = close (stressext e1) (stressext e2).
Proof.
  unfold takes. cbn [stressext]. replace (close (stressext e2) (stressext e1)) with (close (stressext e1) (stressext e2)) by (unfold close; now rewrite dist_sym).
  destruct (close (stressext e1) (stressext e2)) eqn:E; [easy|]. unfold close in *. now rewrite dist_sym.
Qed.
Lemma takes_back e1 e2 : takes (takes e1 e2) (takes e2 e1) = e1.
Proof.
  unfold takes at 1. rewrite takes_close. destruct (close (stressext e1) (stressext e2)) eqn:E; unfold takes; cbn [temp pext stressext bweights hweights].
  - rewrite E. now destruct e1.
  - replace (close (stressext e2) (stressext e1)) with false by (unfold close in *; now rewrite dist_sym). now destruct e1.
Qed.
(** Swapping twice gives back the ensembles, in every case. *)
Theorem swap_twice e1 e2 e1' e2' : ensemble_swap e1 e2 = Some (e1', e2') -> ensemble_swap e1' e2' = Some (e1, e2).
Proof.
  intros H. assert (C : comparable e1 e2) by (apply swap_none; rewrite H; discriminate).
  rewrite swap_form in H by easy. injection H as <- <-. rewrite swap_form; [now rewrite !takes_back|]. now destruct C.
Qed.

(** ** One attempt *)

Lemma scale_scale c d l : c * d = 1 -> scale d (scale c l) = l.
Proof.
  intros H. unfold scale. rewrite map_map. rewrite <- (map_id l) at 2. apply map_ext. intros x. rewrite Rmult_assoc, H. ring.
Qed.
Lemma ratio_inv a b : 0 < a -> 0 < b -> a / b * (b / a) = 1.
Proof. intros. field. lra. Qed.
Lemma sqrt_ratio_inv a b : 0 < a -> 0 < b -> sqrt (a / b) * sqrt (b / a) = 1.
Proof.
  intros Ha Hb. rewrite <- sqrt_mult; [rewrite ratio_inv by easy; apply sqrt_1| |]; left; now apply Rdiv_lt_0_compat.
Qed.
Lemma rescale_back ti tj si sj si' sj' : 0 < ti -> 0 < tj -> rescale ti tj si sj = (si', sj') -> rescale tj ti si' sj' = (si, sj).
Proof.
  intros Hi Hj H. destruct si as [ei mi bi hi gi xi]. destruct sj as [ej mj bj hj gj xj]. unfold rescale in H. cbn in H.
  destruct bi as [pi|]; [destruct bj as [pj|]|]; injection H as <- <-; unfold rescale; cbn;
    unfold with_mom, with_bp; cbn; rewrite ?scale_scale by (now apply ratio_inv || now apply sqrt_ratio_inv); reflexivity.
Qed.
Lemma h0_back si sj si' sj' : swap_h0 si sj = (si', sj') -> swap_h0 si' sj' = (si, sj).
Proof.
  intros H. destruct si as [ei mi bi hi gi xi]. destruct sj as [ej mj bj hj gj xj]. unfold swap_h0 in H. cbn in H.
  destruct hj as [hj|]; [destruct hi as [hi|]|]; injection H as <- <-; reflexivity.
Qed.
Lemma rescale_en ti tj si sj e e' : rescale ti tj (with_en si e) (with_en sj e') =
  (with_en (fst (rescale ti tj si sj)) e, with_en (snd (rescale ti tj si sj)) e').
Proof. destruct si as [ei mi [bi|] hi gi xi]; destruct sj as [ej mj [bj|] hj gj xj]; reflexivity. Qed.
Lemma h0_en si sj e e' : swap_h0 (with_en si e) (with_en sj e') = (with_en (fst (swap_h0 si sj)) e, with_en (snd (swap_h0 si sj)) e').
Proof. destruct si as [ei mi bi [hi|] gi xi]; destruct sj as [ej mj bj [hj|] gj xj]; reflexivity. Qed.
Lemma rescale_h0 ti tj si sj : rescale ti tj (fst (swap_h0 si sj)) (snd (swap_h0 si sj))
  = swap_h0 (fst (rescale ti tj si sj)) (snd (rescale ti tj si sj)).
Proof. destruct si as [ei mi [bi|] [hi|] gi xi]; destruct sj as [ej mj [bj|] [hj|] gj xj]; reflexivity. Qed.

Section Attempt.
Variable lpens eham : nat -> sys -> R.
Variable rk : bool.
Hypothesis eham_eens : forall k s x, eham k (with_eens s x) = eham k s.
Let att := attempt lpens eham rk.

(** the two systems as they are proposed, before the decision *)
Definition proposed (si sj : sys) : sys * sys :=
  let '(s2, s2') := if rk then rescale (temp (en si)) (temp (en sj)) (with_en si (takes (en si) (en sj))) (with_en sj (takes (en sj) (en si)))
                    else (with_en si (takes (en si) (en sj)), with_en sj (takes (en sj) (en si))) in
  swap_h0 s2 s2'.
Definition pxc (i j : nat) (si sj : sys) : R :=
  exp ((lpens i (fst (proposed si sj)) + lpens j (snd (proposed si sj))) - (lpens i si + lpens j sj)).
Lemma proposed_en si sj : en (fst (proposed si sj)) = takes (en si) (en sj) /\ en (snd (proposed si sj)) = takes (en sj) (en si).
Proof.
  unfold proposed. destruct rk.
  - rewrite rescale_en, h0_en. easy.
  - rewrite h0_en. easy.
Qed.
Lemma att_form u i j si sj : comparable (en si) (en sj) ->
  att u i j si sj =
    (if Rlt_dec u (pxc i j si sj)
     then let '(s3, s3') := proposed si sj in
          let s4 := with_gle s3 (scale (temp (en sj) / temp (en si)) (gle s3)) in
          let s4' := with_gle s3' (scale (temp (en si) / temp (en sj)) (gle s3')) in
          Some (with_eens s4 (eens s4 + (econs eham i si - econs eham i s4)), with_eens s4' (eens s4' + (econs eham j sj - econs eham j s4')), true)
     else let '(s3, s3') := proposed si sj in
          let s4 := with_en s3 (en si) in let s4' := with_en s3' (en sj) in
          let '(s5, s5') := if rk then rescale (temp (en sj)) (temp (en si)) s4 s4' else (s4, s4') in
          Some (swap_h0 s5 s5', false)).
Proof.
  intros C. unfold att, attempt. rewrite swap_form by easy. pose proof (proposed_en si sj) as [E1 E2]. unfold pxc. unfold proposed in *.
  destruct (if rk then _ else _) as [s2 s2']. destruct (swap_h0 s2 s2') as [s3 s3']. cbn [fst snd] in *.
  destruct Rlt_dec; [easy|]. rewrite E1, E2. rewrite swap_form; [now rewrite !takes_back|]. now destruct C.
Qed.

(** Accepted exactly when the random number is below the ratio of probabilities. *)
Theorem acceptance u i j si sj : comparable (en si) (en sj) ->
  exists si' sj' acc, att u i j si sj = Some (si', sj', acc) /\ (acc = true <-> u < pxc i j si sj).
Proof.
  intros C. rewrite att_form by easy. destruct Rlt_dec; destruct (proposed si sj) as [s3 s3'].
  - do 3 eexists. split; [reflexivity|easy].
  - cbv zeta. destruct (if rk then _ else _) as [s5 s5']. destruct (swap_h0 s5 s5') as [s6 s6']. do 3 eexists. split; [reflexivity|]. split; [discriminate|contradiction].
Qed.
Lemma accepted_below u i j si sj si' sj' : comparable (en si) (en sj) -> att u i j si sj = Some (si', sj', true) -> u < pxc i j si sj.
Proof. intros C H. destruct (acceptance u i j si sj C) as (a & b & acc & A & Q). rewrite A in H. injection H as _ _ ->. now apply Q. Qed.

(** A rejected exchange leaves both systems exactly as they were. *)
Theorem rejected_restores u i j si sj si' sj' : 0 < temp (en si) -> 0 < temp (en sj) ->
  att u i j si sj = Some (si', sj', false) -> si' = si /\ sj' = sj.
Proof.
  intros Ti Tj H. assert (C : comparable (en si) (en sj)).
  { apply swap_none. intros N. unfold att, attempt in H. now rewrite N in H. }
  rewrite att_form in H by easy. destruct Rlt_dec; [destruct (proposed si sj); discriminate|].
  destruct (proposed si sj) as [s3 s3'] eqn:P. unfold proposed in P.
  cbv zeta in H.
  assert (X : forall s e e', with_en (with_en s e) e' = with_en s e') by (intros [] e e'; reflexivity).
  assert (Y : forall s, with_en s (en s) = s) by (intros []; reflexivity).
  destruct rk.
  - rewrite rescale_en, h0_en in P. injection P as <- <-. rewrite !X in H. rewrite rescale_en in H. cbn [fst snd] in H.
    rewrite rescale_h0 in H. rewrite (h0_en _ _ (en si) (en sj)) in H. injection H as <- <-.
    destruct (rescale (temp (en si)) (temp (en sj)) si sj) as [r r'] eqn:Rs. cbn [fst snd].
    rewrite (rescale_back _ _ _ _ _ _ Ti Tj Rs). cbn [fst snd].
    destruct (swap_h0 si sj) as [q q'] eqn:Q. cbn [fst snd]. rewrite (h0_back _ _ _ _ Q). cbn [fst snd]. now rewrite !Y.
  - rewrite h0_en in P. injection P as <- <-. rewrite !X in H. rewrite h0_en in H. injection H as <- <-.
    destruct (swap_h0 si sj) as [q q'] eqn:Q. cbn [fst snd]. rewrite (h0_back _ _ _ _ Q). cbn [fst snd]. now rewrite !Y.
Qed.

(** An accepted exchange swaps the ensembles, scales the momenta if asked to, and
    corrects eens; positions and cells are not part of it. *)
Theorem accepted_swaps u i j si sj si' sj' : att u i j si sj = Some (si', sj', true) ->
  en si' = takes (en si) (en sj) /\ en sj' = takes (en sj) (en si) /\
  mom si' = (if rk then scale (sqrt (temp (en sj) / temp (en si))) (mom si) else mom si) /\
  mom sj' = (if rk then scale (sqrt (temp (en si) / temp (en sj))) (mom sj) else mom sj) /\
  gle si' = scale (temp (en sj) / temp (en si)) (gle si) /\ gle sj' = scale (temp (en si) / temp (en sj)) (gle sj).
Proof.
  intros H. assert (C : comparable (en si) (en sj)).
  { apply swap_none. intros N. unfold att, attempt in H. now rewrite N in H. }
  pose proof (accepted_below _ _ _ _ _ _ _ C H) as AB. rewrite att_form in H by easy. pose proof (proposed_en si sj) as [E1 E2].
  assert (M : mom (fst (proposed si sj)) = (if rk then scale (sqrt (temp (en sj) / temp (en si))) (mom si) else mom si) /\
    mom (snd (proposed si sj)) = (if rk then scale (sqrt (temp (en si) / temp (en sj))) (mom sj) else mom sj) /\
    gle (fst (proposed si sj)) = gle si /\ gle (snd (proposed si sj)) = gle sj).
  { unfold proposed. destruct rk, si as [ei mi [bi|] [hi|] gi xi], sj as [ej mj [bj|] [hj|] gj xj]; easy. }
  destruct Rlt_dec; [|contradiction].
  destruct (proposed si sj) as [s3 s3']. cbn [fst snd] in *. injection H as <- <-.
  destruct M as (M1 & M2 & M3 & M4). cbn. rewrite M3, M4. easy.
Qed.
(** With barostats in both systems the reference cells are exchanged and the momenta scaled. *)
Theorem accepted_barostats u i j si sj si' sj' : att u i j si sj = Some (si', sj', true) ->
  (forall hi hj, h0 si = Some hi -> h0 sj = Some hj -> h0 si' = Some hj /\ h0 sj' = Some hi) /\
  (forall pi pj, bp si = Some pi -> bp sj = Some pj ->
     bp si' = Some (if rk then scale (temp (en sj) / temp (en si)) pi else pi) /\
     bp sj' = Some (if rk then scale (temp (en si) / temp (en sj)) pj else pj)).
Proof.
  intros H. assert (C : comparable (en si) (en sj)).
  { apply swap_none. intros N. unfold att, attempt in H. now rewrite N in H. }
  pose proof (accepted_below _ _ _ _ _ _ _ C H) as AB. rewrite att_form in H by easy.
  destruct Rlt_dec; [|contradiction].
  destruct (proposed si sj) as [s3 s3'] eqn:P. injection H as <- <-. cbn [h0 bp with_gle with_eens].
  unfold proposed in P. split.
  - intros hi hj Ei Ej. destruct rk, si as [ei mi [bi|] [hi'|] gi xi], sj as [ej mj [bj|] [hj'|] gj xj]; cbn in *; try discriminate;
      injection P as <- <-; cbn; rewrite Ei, Ej; easy.
  - intros pi pj Ei Ej. destruct rk, si as [ei mi [bi|] [hi'|] gi xi], sj as [ej mj [bj|] [hj'|] gj xj]; cbn in *; try discriminate;
      injection P as <- <-; cbn; injection Ei as ->; injection Ej as ->; easy.
Qed.
(** The conserved quantity of both systems is the same after an accepted exchange. *)
Theorem accepted_conserves u i j si sj si' sj' : att u i j si sj = Some (si', sj', true) ->
  econs eham i si' = econs eham i si /\ econs eham j sj' = econs eham j sj.
Proof.
  intros H. assert (C : comparable (en si) (en sj)).
  { apply swap_none. intros N. unfold att, attempt in H. now rewrite N in H. }
  pose proof (accepted_below _ _ _ _ _ _ _ C H) as AB. rewrite att_form in H by easy.
  destruct Rlt_dec; [|contradiction].
  destruct (proposed si sj) as [s3 s3']. injection H as <- <-. unfold econs. rewrite !eham_eens. cbn [eens with_eens]. cbn [eens with_eens with_gle]. split; ring.
Qed.
(** ** Histories *)

Let trn := turn lpens eham rk.
Definition valid (n : nat) (s : st) : Prop := forall k, (k < n)%nat -> 0 < temp (en (systems s k)).
Inductive history (n : nat) : st -> st -> Prop :=
| h_refl s : history n s s
| h_turn s s1 s2 i j stride rnd : (i < n)%nat -> (j < n)%nat -> i <> j -> history n s s1 -> trn stride rnd s1 (i, j) = Some s2 -> history n s s2
| h_flag s s1 b : history n s s1 -> history n s (mkst (systems s1) (repindex s1) (used s1) b).

Lemma put_same {A} (f : nat -> A) i a : put f i a i = a.
Proof. unfold put. now rewrite Nat.eqb_refl. Qed.
Lemma put_other {A} (f : nat -> A) i a k : k <> i -> put f i a k = f k.
Proof. intros H. unfold put. apply Nat.eqb_neq in H. now rewrite H. Qed.

(** every step of the program is a history *)
Lemma pairs_bound n i j : In (i, j) (pairs n) -> (j < i < n)%nat.
Proof.
  unfold pairs. rewrite in_flat_map. intros (k & Hk & H). apply in_map_iff in H as (l & E & Hl). injection E as -> ->.
  apply in_seq in Hk. apply in_seq in Hl. lia.
Qed.
Lemma pairs_all n i j : (j < i < n)%nat -> In (i, j) (pairs n).
Proof.
  intros H. unfold pairs. apply in_flat_map. exists i. split; [apply in_seq; lia|]. apply in_map_iff. exists j. split; [easy|apply in_seq; lia].
Qed.
Lemma turns_none stride rnd l : turns lpens eham rk stride rnd l None = None.
Proof. induction l; easy. Qed.
Lemma turns_history n stride rnd l : (forall i j, In (i, j) l -> (i < n)%nat /\ (j < n)%nat /\ i <> j) -> forall s s1 s2,
  history n s s1 -> turns lpens eham rk stride rnd l (Some s1) = Some s2 -> history n s s2.
Proof.
  induction l as [|[i j] l IH]; intros Hl s s1 s2 H E.
  - injection E as <-. easy.
  - unfold turns in E. cbn [fold_left] in E. change (fold_left _ l ?x) with (turns lpens eham rk stride rnd l x) in E.
    destruct (turn lpens eham rk stride rnd s1 (i, j)) as [s3|] eqn:T; [|now rewrite turns_none in E].
    destruct (Hl i j (or_introl eq_refl)) as (A & B & C).
    apply (IH (fun a b K => Hl a b (or_intror K)) s s3); [|easy]. now apply (h_turn n s s1 s3 i j stride rnd).
Qed.
Theorem step_is_history n stride rnd s s' : step lpens eham rk n stride rnd s = Some s' -> history n s s'.
Proof.
  unfold step. destruct Rle_dec; [intros E; injection E as <-; apply h_refl|]. intros E.
  apply (turns_history n stride rnd (pairs n)) with (s1 := mkst (systems s) (repindex s) (used s) false) (2 := h_flag n s s false (h_refl n s)); [|easy].
  intros i j H. apply pairs_bound in H. lia.
Qed.
(** the swap file gets a line exactly when the step has moved some replica *)
Lemma turn_index stride rnd s i j s' : i <> j -> trn stride rnd s (i, j) = Some s' ->
  (fxc s' = fxc s /\ forall k, repindex s' k = repindex s k) \/
  (fxc s' = true /\ repindex s' i = repindex s j /\ repindex s' j = repindex s i /\ forall k, k <> i -> k <> j -> repindex s' k = repindex s k).
Proof.
  intros N T. unfold trn, turn in T. destruct Rlt_dec; [injection T as <-; left; easy|].
  destruct (attempt _ _ _ _ _ _) as [[[si sj] [|]]|]; [| |easy]; injection T as <-; cbn [fxc repindex].
  - right. rewrite Bool.orb_true_r. split; [easy|]. split; [now rewrite put_other, put_same by easy|]. split; [now rewrite put_same|].
    intros k H1 H2. now rewrite !put_other by easy.
  - left. now rewrite Bool.orb_false_r.
Qed.
Lemma turns_app stride rnd l1 l2 s : turns lpens eham rk stride rnd (l1 ++ l2) s = turns lpens eham rk stride rnd l2 (turns lpens eham rk stride rnd l1 s).
Proof. apply fold_left_app. Qed.
Lemma turns_one stride rnd ij s : turns lpens eham rk stride rnd [ij] (Some s) = trn stride rnd s ij.
Proof. reflexivity. Qed.
Lemma row_index stride rnd n s1 t : (t <= n)%nat -> forall s2, turns lpens eham rk stride rnd (map (fun j => (n, j)) (seq 0 t)) (Some s1) = Some s2 ->
  (forall k, (t <= k)%nat -> k <> n -> repindex s2 k = repindex s1 k) /\
  ((fxc s2 = fxc s1 /\ forall k, repindex s2 k = repindex s1 k) \/ (fxc s2 = true /\ exists j, (j < t)%nat /\ repindex s2 n = repindex s1 j)) /\
  (forall k, (k <= n)%nat -> exists k', (k' <= n)%nat /\ repindex s2 k = repindex s1 k').
Proof.
  induction t as [|t IH]; intros Ht s2 E.
  - injection E as <-. split; [easy|]. split; [left; easy|]. intros k Hk. now exists k.
  - rewrite seq_S, map_app, turns_app in E. cbn [map Nat.add] in E.
    destruct (turns lpens eham rk stride rnd (map (fun j => (n, j)) (seq 0 t)) (Some s1)) as [s|] eqn:T; [|now rewrite turns_none in E].
    rewrite turns_one in E. destruct (IH ltac:(lia) s eq_refl) as (A & B & C). apply turn_index in E; [|lia].
    destruct E as [[F G]|(F & G1 & G2 & G3)].
    + split; [|split].
      * intros k Hk Nk. rewrite G. apply A; [lia|easy].
      * destruct B as [[B1 B2]|(B1 & j & Hj & B2)]; [left | right].
        -- split; [now rewrite F|]. intros k. now rewrite G.
        -- split; [now rewrite F|]. exists j. split; [lia|]. now rewrite G.
      * intros k Hk. rewrite G. now apply C.
    + split; [|split].
      * intros k Hk Nk. rewrite G3 by lia. apply A; [lia|easy].
      * right. split; [easy|]. exists t. split; [lia|]. rewrite G1. apply A; lia.
      * intros k Hk. destruct (Nat.eq_dec k n) as [->|N1]; [rewrite G1; apply C; lia|].
        destruct (Nat.eq_dec k t) as [->|N2]; [rewrite G2; apply C; lia|]. rewrite G3 by easy. now apply C.
Qed.
Lemma pairs_S n : pairs (S n) = pairs n ++ map (fun j => (n, j)) (seq 0 n).
Proof. unfold pairs. rewrite seq_S, flat_map_app. cbn [flat_map Nat.add]. now rewrite app_nil_r. Qed.
Lemma pairs_index stride rnd n s0 : (forall a b, (a < n)%nat -> (b < n)%nat -> repindex s0 a = repindex s0 b -> a = b) -> fxc s0 = false ->
  forall s, turns lpens eham rk stride rnd (pairs n) (Some s0) = Some s ->
  (forall k, (n <= k)%nat -> repindex s k = repindex s0 k) /\
  (forall k, (k < n)%nat -> exists k', (k' < n)%nat /\ repindex s k = repindex s0 k') /\
  (if fxc s then exists k, (k < n)%nat /\ repindex s k <> repindex s0 k else forall k, repindex s k = repindex s0 k).
Proof.
  intros Inj F0. induction n as [|n IH]; intros s E.
  - injection E as <-. rewrite F0. repeat split; try easy; lia.
  - rewrite pairs_S, turns_app in E. destruct (turns lpens eham rk stride rnd (pairs n) (Some s0)) as [s1|] eqn:T; [|now rewrite turns_none in E].
    destruct (IH ltac:(intros a b Ha Hb; apply Inj; lia) s1 eq_refl) as (A & B & C). clear IH.
    destruct (row_index stride rnd n s1 n ltac:(lia) s E) as (A' & B' & C').
    split; [|split].
    + intros k Hk. rewrite A' by lia. apply A. lia.
    + intros k Hk. destruct (C' k ltac:(lia)) as (k' & Hk' & E'). rewrite E'.
      destruct (Nat.eq_dec k' n) as [->|N]; [exists n; split; [lia|apply A; lia]|].
      destruct (B k' ltac:(lia)) as (k2 & H2 & E2). exists k2. split; [lia|easy].
    + destruct B' as [[B1 B2]|(B1 & j & Hj & B2)].
      * rewrite B1. destruct (fxc s1).
        -- destruct C as (k & Hk & Ck). exists k. split; [lia|]. now rewrite B2.
        -- intros k. now rewrite B2.
      * rewrite B1. exists n. split; [lia|]. rewrite B2. destruct (B j Hj) as (k' & Hk' & E'). rewrite E'. intros X.
        apply Inj in X; lia.
Qed.
Theorem swap_file_lines n stride rnd s s' : 0 < stride -> NoDup (map (repindex s) (seq 0 n)) ->
  step lpens eham rk n stride rnd s = Some s' ->
  match swap_line n s' with
  | Some l => l = map (repindex s') (seq 0 n) /\ l <> map (repindex s) (seq 0 n)
  | None => map (repindex s') (seq 0 n) = map (repindex s) (seq 0 n)
  end.
Proof.
  intros Hs Hd E. unfold step in E. destruct Rle_dec as [|_]; [lra|].
  assert (Inj : forall a b, (a < n)%nat -> (b < n)%nat -> repindex s a = repindex s b -> a = b).
  { intros a b Ha Hb X. rewrite NoDup_nth with (d := repindex s 0%nat) in Hd. rewrite map_length, seq_length in Hd.
    apply (Hd a b Ha Hb). rewrite !map_nth, !seq_nth by easy. easy. }
  apply pairs_index in E; [|exact Inj|easy]. destruct E as (_ & _ & C). cbn [repindex] in C. unfold swap_line. destruct (fxc s').
  - split; [easy|]. destruct C as (k & Hk & C). intros X. apply C.
    assert (Y : nth k (map (repindex s') (seq 0 n)) (repindex s' 0%nat) = nth k (map (repindex s) (seq 0 n)) (repindex s' 0%nat)) by now rewrite X.
    rewrite (nth_indep (map (repindex s) (seq 0 n)) (repindex s' 0%nat) (repindex s 0%nat)) in Y by now rewrite map_length, seq_length.
    rewrite !map_nth, !seq_nth in Y by easy. easy.
  - apply map_ext. easy.
Qed.
(** every pair of systems gets one chance per step *)
Theorem every_pair_once n : NoDup (pairs n) /\ forall i j, In (i, j) (pairs n) <-> (j < i < n)%nat.
Proof.
  split; [|intros i j; split; [apply pairs_bound|apply pairs_all]]. unfold pairs.
  assert (G : forall a, NoDup (flat_map (fun i => map (fun j => (i, j)) (seq 0 i)) (seq a n))); [|apply G].
  induction n as [|n IH]; intros a; cbn [seq flat_map]; [constructor|].
  assert (ND : forall (i : nat) (l : list nat), NoDup l -> NoDup (map (fun j => (i, j)) l)).
  { intros i l N. apply FinFun.Injective_map_NoDup; [|easy]. intros x y E. now injection E. }
  assert (AP : forall (l l' : list (nat * nat)), NoDup l -> NoDup l' -> (forall x, In x l -> ~ In x l') -> NoDup (l ++ l')).
  { clear. induction l as [|x l IH]; intros l' N N' D; [easy|]. cbn [app]. inversion N; subst. constructor.
    - rewrite in_app_iff. intros [K|K]; [contradiction|]. apply (D x); [now left|easy].
    - apply IH; [easy|easy|]. intros y Hy. apply D. now right. }
  apply AP; [apply ND; apply seq_NoDup|apply IH|]. intros [i j] H K.
  apply in_map_iff in H as (l & E & _). injection E as -> ->. apply in_flat_map in K as (k & Hk & H). apply in_map_iff in H as (l & E & _). injection E as -> ->.
  apply in_seq in Hk. lia.
Qed.

Lemma transp_perm {A} (f : nat -> A) n i j : (i < n)%nat -> (j < n)%nat -> i <> j ->
  Permutation (map (put (put f i (f j)) j (f i)) (seq 0 n)) (map f (seq 0 n)).
Proof.
  intros Hi Hj N. set (t := fun k => if Nat.eqb k j then i else if Nat.eqb k i then j else k).
  assert (E : map (put (put f i (f j)) j (f i)) (seq 0 n) = map f (map t (seq 0 n))).
  { rewrite map_map. apply map_ext. intros k. unfold put, t. destruct (Nat.eqb_spec k j); [easy|]. destruct (Nat.eqb_spec k i); easy. }
  rewrite E. apply Permutation_map. apply NoDup_Permutation; [|apply seq_NoDup|].
  - apply FinFun.Injective_map_NoDup; [|apply seq_NoDup]. intros x y. unfold t.
    destruct (Nat.eqb_spec x j), (Nat.eqb_spec y j), (Nat.eqb_spec x i), (Nat.eqb_spec y i); lia.
  - intros x. rewrite in_map_iff, in_seq. split.
    + intros (k & Ek & Hk). apply in_seq in Hk. unfold t in Ek. destruct (Nat.eqb_spec k j), (Nat.eqb_spec k i); lia.
    + intros Hx. exists (t x). split; [|apply in_seq; unfold t; destruct (Nat.eqb_spec x j), (Nat.eqb_spec x i); lia].
      unfold t. destruct (Nat.eqb_spec x j), (Nat.eqb_spec x i); repeat match goal with |- context [Nat.eqb ?a ?b] => destruct (Nat.eqb_spec a b) end; lia.
Qed.
(** The replica index is a permutation at all times. *)
Theorem repindex_permutation n s s' : history n s s' ->
  Permutation (map (repindex s') (seq 0 n)) (map (repindex s) (seq 0 n)).
Proof.
  induction 1 as [s|s s1 s2 i j stride rnd Hi Hj N H IH T|s s1 b H IH]; [easy| |exact IH].
  rewrite <- IH. unfold trn, turn in T. destruct Rlt_dec; [injection T as <-; easy|].
  destruct attempt as [[[si sj] acc]|]; [|discriminate]. injection T as <-. cbn [repindex]. destruct acc; [|easy]. now apply transp_perm.
Qed.

(** Facts that are true of every system after an attempt hold after any history. *)
Lemma history_inv n (I : nat -> nat -> sys -> Prop) s s' :
  (forall u i j si sj si' sj' acc ri rj, (i < n)%nat -> (j < n)%nat -> att u i j si sj = Some (si', sj', acc) ->
     I i ri si -> I j rj sj -> I i (if acc then rj else ri) si' /\ I j (if acc then ri else rj) sj') ->
  history n s s' -> (forall k, (k < n)%nat -> I k (repindex s k) (systems s k)) -> forall k, (k < n)%nat -> I k (repindex s' k) (systems s' k).
Proof.
  intros St H I0. induction H as [s|s s1 s2 i j stride rnd Hi Hj N H IH T|s s1 b H IH]; [exact I0| |exact (IH I0)].
  specialize (IH I0). unfold trn, turn in T. destruct Rlt_dec; [injection T as <-; exact IH|].
  destruct attempt as [[[si sj] acc]|] eqn:A; [|discriminate]. injection T as <-. cbn [repindex systems].
  destruct (St _ i j _ _ _ _ _ _ _ Hi Hj A (IH i Hi) (IH j Hj)) as [X Y]. intros k Hk.
  destruct (Nat.eq_dec k j) as [-> |Nj].
  - rewrite put_same. destruct acc; [rewrite put_same|]; easy.
  - rewrite put_other by easy. destruct (Nat.eq_dec k i) as [-> |Ni].
    + rewrite put_same. destruct acc; [rewrite put_other, put_same by easy|]; easy.
    + rewrite put_other by easy. destruct acc; [rewrite !put_other by easy|]; now apply IH.
Qed.
Lemma att_temp u i j si sj si' sj' acc : att u i j si sj = Some (si', sj', acc) -> 0 < temp (en si) -> 0 < temp (en sj) ->
  0 < temp (en si') /\ 0 < temp (en sj').
Proof.
  intros A Ti Tj. destruct acc.
  - apply accepted_swaps in A as (-> & -> & _). easy.
  - apply rejected_restores in A as [-> ->]; easy.
Qed.
(** The conserved quantity of every system is the same after any history of
    accepted and rejected exchanges. *)
Theorem exchange_conserves n s s' : valid n s -> history n s s' -> forall k, (k < n)%nat ->
  econs eham k (systems s' k) = econs eham k (systems s k).
Proof.
  intros V H k Hk.
  assert (G := history_inv n (fun k _ x => 0 < temp (en x) /\ econs eham k x = econs eham k (systems s k)) s s').
  apply G; try easy.
  - intros u i j si sj si' sj' acc ri rj Hi Hj A [Ti Ei] [Tj Ej]. destruct (att_temp _ _ _ _ _ _ _ _ A Ti Tj) as [Ti' Tj'].
    destruct acc.
    + apply accepted_conserves in A as [-> ->]. easy.
    + apply rejected_restores in A as [-> ->]; easy.
  - intros l Hl. split; [now apply V|easy].
Qed.
(** With rescaling, momenta in units of the square root of the temperature never change. *)
Theorem scaled_momenta_constant n s s' : rk = true -> valid n s -> history n s s' -> forall k, (k < n)%nat ->
  mom (systems s' k) = scale (sqrt (temp (en (systems s' k)) / temp (en (systems s k)))) (mom (systems s k)).
Proof.
  intros RK V H k Hk.
  assert (G := history_inv n (fun k _ x => 0 < temp (en x) /\ mom x = scale (sqrt (temp (en x) / temp (en (systems s k)))) (mom (systems s k))) s s').
  apply G; try easy.
  - intros u i j si sj si' sj' acc ri rj Hi Hj A [Ti Ei] [Tj Ej]. destruct (att_temp _ _ _ _ _ _ _ _ A Ti Tj) as [Ti' Tj'].
    destruct acc; [|apply rejected_restores in A as [-> ->]; easy].
    apply accepted_swaps in A as (E1 & E2 & M1 & M2 & _). rewrite RK in M1, M2.
    assert (SC : forall a b c l, 0 < a -> 0 < b -> 0 < c -> scale (sqrt (b / a)) (scale (sqrt (a / c)) l) = scale (sqrt (b / c)) l).
    { intros a b c l Ha Hb Hc. unfold scale. rewrite map_map. apply map_ext. intros x. rewrite Rmult_assoc, <- sqrt_mult.
      - f_equal. f_equal. field. lra.
      - left. now apply Rdiv_lt_0_compat.
      - left. now apply Rdiv_lt_0_compat. }
    split.
    + split; [easy|]. rewrite M1, Ei, SC by (easy || now apply V). now rewrite E1.
    + split; [easy|]. rewrite M2, Ej, SC by (easy || now apply V). now rewrite E2.
  - intros l Hl. split; [now apply V|]. specialize (V l Hl). unfold Rdiv. rewrite Rinv_r, sqrt_1 by lra.
    unfold scale. rewrite <- (map_id (mom (systems s l))) at 1. apply map_ext. intros; ring.
Qed.
(** The replica index tells which of the ensembles a system has, if their stresses
    are equal or differ clearly. *)
Definition distinct_stresses (n : nat) (E : nat -> ens) : Prop := forall a b, (a < n)%nat -> (b < n)%nat ->
  stressext (E a) = stressext (E b) \/ / 10 ^ 10 < dist (stressext (E a)) (stressext (E b)).
Theorem repindex_tracks_partial n s s' (E : nat -> ens) : valid n s -> history n s s' -> distinct_stresses n E ->
  (forall k, (k < n)%nat -> (repindex s k < n)%nat /\ en (systems s k) = E (repindex s k)) ->
  forall k, (k < n)%nat -> en (systems s' k) = E (repindex s' k).
Proof.
  intros V H D I0 k Hk.
  assert (G := history_inv n (fun k r x => 0 < temp (en x) /\ (r < n)%nat /\ en x = E r) s s').
  apply G; try easy.
  - intros u i j si sj si' sj' acc ri rj Hi Hj A (Ti & Ri & Ei) (Tj & Rj & Ej). destruct (att_temp _ _ _ _ _ _ _ _ A Ti Tj) as [Ti' Tj'].
    destruct acc; [|apply rejected_restores in A as [-> ->]; easy].
    assert (C : comparable (en si) (en sj)). { apply swap_none. intros N. unfold att, attempt in A. now rewrite N in A. }
    apply accepted_swaps in A as (E1 & E2 & _).
    assert (Q : ensemble_swap (en si) (en sj) = Some (en sj, en si)).
    { apply swap_complete_partial; [easy|]. rewrite Ei, Ej. now apply D. }
    rewrite swap_form in Q by easy. injection Q as Q1 Q2. rewrite E1, E2 in *. rewrite Q1, Q2 in *.
    split; [split; [easy|]; split; [easy|]; now rewrite Ej|split; [easy|]; split; [easy|]; now rewrite Ei].
  - intros l Hl. split; [now apply V|]. now apply I0.
Qed.
End Attempt.

(** ** The probability of an exchange *)

(** The part of [0,1) in which the random number leads to acceptance has length min(1, ratio). *)
Definition accept_prob (p : R) : R := Rmin 1 p.
Theorem acceptance_interval p u : 0 < p -> 0 <= u < 1 -> (u < p <-> u < accept_prob p).
Proof. intros Hp Hu. unfold accept_prob. split; [intros; apply Rmin_glb_lt; lra|]. intros H. pose proof (Rmin_r 1 p). lra. Qed.
(** Detailed balance: probability times acceptance is the same both ways. *)
Theorem detailed_balance a b : exp a * accept_prob (exp (b - a)) = exp b * accept_prob (exp (a - b)).
Proof.
  unfold accept_prob, Rmin. pose proof (exp_pos a). pose proof (exp_pos b).
  assert (E1 : exp (b - a) * exp a = exp b) by (rewrite <- exp_plus; f_equal; ring).
  assert (E2 : exp (a - b) * exp b = exp a) by (rewrite <- exp_plus; f_equal; ring).
  assert (P1 := exp_pos (b - a)). assert (P2 := exp_pos (a - b)).
  destruct (Rle_dec 1 (exp (b - a))), (Rle_dec 1 (exp (a - b))); nra.
Qed.

(** With rescaling the kinetic energies drop out of the exponent. *)
Section Kinetic.
Variables (kb : R) (nb : nat -> nat) (pot bias vspring : nat -> sys -> R) (xlpot : nat -> list (sys -> R)) (kin : nat -> list R -> R) (bkin : nat -> list R -> R).
Hypothesis kb_pos : 0 < kb.
Hypothesis nb_pos : forall k, (0 < nb k)%nat.
(** the kinetic energies are quadratic in the momenta *)
Hypothesis kin_quad : forall k c p, kin k (scale c p) = c ^ 2 * kin k p.
Hypothesis bkin_quad : forall k c p, bkin k (scale c p) = c ^ 2 * bkin k p.
(** the mass of the barostat is proportional to the temperature (barostats.py) *)
Definition baro_kin (k : nat) (s : sys) : R := match bp s with None => 0 | Some p => bkin k p / temp (en s) end.
Definition lp (k : nat) : sys -> R := get_lpens kb (nb k) (pot k) (bias k) (fun s => kin k (mom s)) (vspring k) (xlpot k) [baro_kin k].
(** the same without kinetic energies *)
Definition lp0 (k : nat) : sys -> R := get_lpens kb (nb k) (pot k) (bias k) (fun _ => 0) (vspring k) (xlpot k) [].
Lemma lp_split k s : lp k s = lp0 k s - (kin k (mom s) + baro_kin k s) / (kb * temp (en s) * INR (nb k)).
Proof.
  unfold lp, lp0, get_lpens. cbn [fold_left].
  assert (F : forall l a b, fold_left (fun l p => l + p s) l (a + b) = fold_left (fun l p => l + p s) l a + b).
  { induction l as [|f l IH]; intros a b; cbn [fold_left]; [easy|]. replace (a + b + f s) with (a + f s + b) by ring. apply IH. }
  replace (pot k s + bias k s + kin k (mom s) + vspring k s) with (pot k s + bias k s + 0 + vspring k s + kin k (mom s)) by ring.
  rewrite F. unfold Rdiv. ring.
Qed.
Theorem kinetic_energy_drops_out i j si sj : 0 < temp (en si) -> 0 < temp (en sj) ->
  (bp si = None <-> bp sj = None) ->
  pxc lp true i j si sj = pxc lp0 true i j si sj.
Proof.
  intros Ti Tj B. unfold pxc. f_equal. pose proof (proposed_en (fun _ _ => 0) (fun _ _ => 0) true si sj) as [E1 E2].
  rewrite !lp_split. rewrite E1, E2.
  assert (M : mom (fst (proposed true si sj)) = scale (sqrt (temp (en sj) / temp (en si))) (mom si) /\
     mom (snd (proposed true si sj)) = scale (sqrt (temp (en si) / temp (en sj))) (mom sj)).
  { unfold proposed. destruct si as [ei mi [bi|] [hi|] gi xi], sj as [ej mj [bj|] [hj|] gj xj]; easy. }
  assert (BK : baro_kin i (fst (proposed true si sj)) = temp (en sj) / temp (en si) * baro_kin i si /\
     baro_kin j (snd (proposed true si sj)) = temp (en si) / temp (en sj) * baro_kin j sj).
  { unfold baro_kin. rewrite E1, E2. unfold proposed.
    destruct si as [ei mi [bi|] [hi|] gi xi], sj as [ej mj [bj|] [hj|] gj xj]; cbn in *; rewrite ?bkin_quad; try (split; field; lra);
      destruct B as [B1 B2]; try (discriminate (B1 eq_refl)); discriminate (B2 eq_refl). }
  destruct M as [-> ->]. destruct BK as [-> ->]. rewrite !kin_quad.
  rewrite <- !Rsqr_pow2, !Rsqr_sqrt by (left; now apply Rdiv_lt_0_compat).
  unfold takes. cbn [temp]. pose proof (lt_0_INR _ (nb_pos i)). pose proof (lt_0_INR _ (nb_pos j)).
  set (ki := kin i (mom si)). set (kj := kin j (mom sj)). set (bi := baro_kin i si). set (bj := baro_kin j sj). field. repeat split; lra.
Qed.
End Kinetic.

(** ** The extra momenta of GLE thermostats (C87) *)

(** Their variance in equilibrium is proportional to the temperature, as for the
    momenta (gle theorems in ThermoProps), so the same scaling is needed.  The code scales
    by the ratio of temperatures instead of its square root. *)
Theorem gle_scaling_refuted : exists lpens eham si sj si' sj' u, 0 < temp (en si) /\ 0 < temp (en sj) /\
  attempt lpens eham true u 0 1 si sj = Some (si', sj', true) /\
  mom si' = scale (sqrt (temp (en si') / temp (en si))) (mom si) /\
  gle si' <> scale (sqrt (temp (en si') / temp (en si))) (gle si).
Proof.
  set (z := fun (_ : nat) (_ : sys) => 0). set (si := mksys (mkens 1 0 [] [] []) [1] None None [1] 0). set (sj := mksys (mkens 4 0 [] [] []) [1] None None [1] 0).
  assert (C : comparable (en si) (en sj)) by easy.
  destruct (acceptance z z true 0 0 1 si sj C) as (si' & sj' & acc & A & Q).
  assert (acc = true) as ->. { apply Q. unfold pxc. apply exp_pos. }
  exists z, z, si, sj, si', sj', 0. split; [cbn; lra|]. split; [cbn; lra|]. split; [easy|].
  apply accepted_swaps in A as (E1 & _ & M & _ & G & _). rewrite E1, M, G. cbn.
  assert (S2 : sqrt (4 / 1) = 2). { replace (4 / 1) with (2 * 2) by field. apply sqrt_square. lra. }
  split; [easy|]. unfold scale. cbn. rewrite S2. intros K. injection K as K. lra.
Qed.
(** It is right only between equal temperatures. *)
Theorem gle_scaling_partial a b : 0 < a -> 0 < b -> (b / a = sqrt (b / a) <-> a = b).
Proof.
  intros Ha Hb. assert (P : 0 < b / a) by now apply Rdiv_lt_0_compat. split.
  - intros E. assert (Q := sqrt_sqrt (b / a) ltac:(lra)). rewrite <- E in Q. assert (b / a = 1) by nra.
    apply (Rmult_eq_compat_r a) in H. unfold Rdiv in H. rewrite Rmult_assoc, Rinv_l in H by lra. lra.
  - intros ->. unfold Rdiv. rewrite Rinv_r by lra. now rewrite sqrt_1.
Qed.

(** ** Hamiltonian weights (C42) *)

(** what the bias should be: sum over components of (weight - 1) times the energy *)
Definition hbias_spec (w comps : list R) : R := Rsuml (map (fun p => (fst p - 1) * snd p) (combine w comps)).
Lemma hbias_spec_map w comps : Rsuml (map (fun p => fst p * snd p) (combine (map (fun x => x - 1) w) comps)) = hbias_spec w comps.
Proof. unfold hbias_spec. revert comps. induction w as [|x w IH]; intros [|c comps]; cbn; try easy. now rewrite IH. Qed.
(** the weights given in the input are used... *)
Theorem initial_weights_used w comps : fst (hbias comps (bind_hens w)) = hbias_spec w comps.
Proof. unfold hbias, bind_hens, scalings. cbn. apply hbias_spec_map. Qed.
(** ...but once the energy has been read, assigning other weights has no effect, ever *)
Inductive hop := HRead (comps : list R) | HAssign (w : list R).
Definition do_hop (h : hens) (o : hop) : hens := match o with HRead c => snd (hbias c h) | HAssign w => assign_hw h w end.
Theorem weights_frozen w c0 ops comps :
  let h := fold_left do_hop ops (snd (hbias c0 (bind_hens w))) in fst (hbias comps h) = hbias_spec w comps.
Proof.
  assert (G : forall ops h, cache h = Some (map (fun x => x - 1) w) -> cache (fold_left do_hop ops h) = Some (map (fun x => x - 1) w)).
  { induction ops0 as [|o l IH]; intros h Hh; cbn [fold_left]; [easy|]. apply IH. destruct o; cbn; [|easy].
    unfold hbias, scalings. now rewrite Hh. }
  cbv zeta. unfold hbias at 1, scalings. rewrite (G ops) by (unfold hbias, bind_hens, scalings; reflexivity). cbn [fst]. apply hbias_spec_map.
Qed.
Theorem hamiltonian_exchange_refuted : exists w1 w2 comps, let h1 := snd (hbias comps (bind_hens w1)) in let h2 := snd (hbias comps (bind_hens w2)) in
  let '(h1', h2') := swap_hens h1 h2 in hw h1' = w2 /\ fst (hbias comps h1') <> hbias_spec w2 comps.
Proof.
  exists [1], [2], [1]. cbn [hbias bind_hens scalings cache snd hw map]. unfold swap_hens, leqb. cbn [hw].
  destruct (list_eq_dec Req_EM_T [1] [2]) as [E|_]; [injection E; lra|]. cbn. unfold hbias_spec. cbn. split; [easy|lra].
Qed.
(** Therefore an exchange between systems that differ only in their Hamiltonian
    weights is always accepted, whatever the energies: the probabilities in the code
    do not depend on the attribute that was swapped. *)
Theorem hamiltonian_exchange_always_accepted lpens eham rk i j si sj u :
  (forall k s w, lpens k (with_en s (mkens (temp (en s)) (pext (en s)) (stressext (en s)) (bweights (en s)) w)) = lpens k s) ->
  temp (en si) = temp (en sj) -> 0 < temp (en si) -> pext (en si) = pext (en sj) -> stressext (en si) = stressext (en sj) -> bweights (en si) = bweights (en sj) ->
  length (hweights (en si)) = length (hweights (en sj)) -> h0 si = None -> h0 sj = None -> bp si = None -> bp sj = None -> u < 1 ->
  exists si' sj', attempt lpens eham rk u i j si sj = Some (si', sj', true).
Proof.
  intros HL T Tp P S B H H1 H2 B1 B2 U. assert (C : comparable (en si) (en sj)) by (split; [now rewrite B|easy]).
  destruct (acceptance lpens eham rk u i j si sj C) as (si' & sj' & acc & A & Q).
  assert (acc = true) as ->; [|eauto]. apply Q. replace (pxc lpens rk i j si sj) with 1; [easy|]. symmetry.
  assert (SC : forall l, scale 1 l = l) by (intros l; unfold scale; rewrite <- (map_id l) at 2; apply map_ext; intros; ring).
  assert (PP : fst (proposed rk si sj) = with_en si (takes (en si) (en sj)) /\ snd (proposed rk si sj) = with_en sj (takes (en sj) (en si))).
  { unfold proposed. destruct rk; [rewrite rescale_en, h0_en|rewrite h0_en]; cbn [fst snd]; unfold rescale, swap_h0; cbn [h0 bp with_mom].
    - rewrite <- T. unfold Rdiv. rewrite Rinv_r, sqrt_1 by lra. rewrite !SC, B1. cbn [fst snd with_mom h0]. rewrite H2. cbn. destruct si, sj; easy.
    - rewrite H2. easy. }
  unfold pxc. destruct PP as [-> ->].
  assert (T1 : takes (en si) (en sj) = mkens (temp (en si)) (pext (en si)) (stressext (en si)) (bweights (en si)) (hweights (en sj))).
  { unfold takes. rewrite <- T, <- P, <- S, <- B. now destruct (close _ _). }
  assert (T2 : takes (en sj) (en si) = mkens (temp (en sj)) (pext (en sj)) (stressext (en sj)) (bweights (en sj)) (hweights (en si))).
  { unfold takes. rewrite T, P, S, B. now destruct (close _ _). }
  rewrite T1, T2, !HL. rewrite Rminus_diag_eq by easy. apply exp_0.
Qed.
(** The flag that turns the bias on is off exactly when it is needed: with weights
    different from one the scaled forces and all explicit biases are left out of
    the momentum update, while the conserved energy and the probability contain them. *)
Theorem weights_switch_bias_off nb w f b : / 10 ^ 20 <= meansq w -> outer_force nb w f b = f.
Proof. intros H. unfold outer_force, has_bias. destruct Rlt_dec; [lra|]. now rewrite Bool.andb_false_r. Qed.
Theorem scaled_forces_never_used w f b : outer_force 0 w f b = f.
Proof. reflexivity. Qed.
Theorem hamiltonian_forces_refuted : exists nb w f b, meansq w = 1 /\ b <> 0 /\ outer_force nb w f b <> f + b.
Proof.
  exists 1%nat, [2], 0, 1. split; [unfold meansq; cbn; field|]. split; [lra|]. rewrite weights_switch_bias_off; [lra|].
  unfold meansq. cbn [map Rsuml length INR]. replace (((2 - 1) ^ 2 + 0) / 1) with 1 by field.
  rewrite <- Rinv_1. apply Rinv_le_contravar; [lra|]. apply pow_R1_Rle. lra.
Qed.
(** With explicit bias components and unit weights the bias is used. *)
Theorem explicit_bias_used_partial nb w f b : (0 < nb)%nat -> (forall x, In x w -> x = 1) -> outer_force nb w f b = f + b.
Proof.
  intros Hn H. unfold outer_force, has_bias. assert (E : meansq w = 0).
  { unfold meansq. replace (Rsuml _) with 0; [unfold Rdiv; ring|]. induction w as [|x w IH]; cbn [map Rsuml]; [easy|].
    rewrite <- IH by (intros; apply H; now right). rewrite (H x) by now left. ring. }
  rewrite E. destruct Rlt_dec as [_|L]; [|exfalso; apply L; apply Rinv_0_lt_compat; apply pow_lt; lra].
  apply Nat.ltb_lt in Hn. now rewrite Hn.
Qed.

(** ** A concrete case *)
Example exchange_case : let si := mksys (mkens 300 1 [0] [] [1]) [1; -2] (Some [3]) (Some [1]) [] 0 in
  let sj := mksys (mkens 600 2 [1] [] [1]) [2; 5] (Some [4]) (Some [2]) [] 0 in
  comparable (en si) (en sj) /\ 0 < temp (en si) /\ 0 < temp (en sj) /\
  exists s', step (fun _ _ => 0) (fun _ _ => 0) true 2 1 (fun _ => 0) (mkst (fun k => match k with 0%nat => si | _ => sj end) (fun k => k) 0 false) = Some s' /\
   repindex s' 0%nat = 1%nat /\ repindex s' 1%nat = 0%nat.
Proof.
  cbv zeta. split; [easy|]. split; [cbn; lra|]. split; [cbn; lra|].
  unfold step. destruct Rle_dec; [lra|]. unfold pairs, turns. cbn [seq flat_map map app fold_left]. unfold turn. cbn [used systems].
  destruct Rlt_dec; [lra|].
  match goal with |- context [attempt ?l ?e ?r ?u ?i ?j ?a ?b] => destruct (acceptance l e r u i j a b) as (si' & sj' & acc & A & Q) end; [easy|].
  rewrite A. assert (acc = true) as ->. { apply Q. unfold pxc. apply exp_pos. }
  eexists. split; [reflexivity|]. easy.
Qed.

Print Assumptions swap_defined.
Print Assumptions swap_file_lines.
Print Assumptions swap_complete_partial.
Print Assumptions swap_complete_refuted.
Print Assumptions swap_twice.
Print Assumptions rejected_restores.
Print Assumptions accepted_swaps.
Print Assumptions accepted_barostats.
Print Assumptions accepted_conserves.
Print Assumptions acceptance.
Print Assumptions step_is_history.
Print Assumptions every_pair_once.
Print Assumptions repindex_permutation.
Print Assumptions exchange_conserves.
Print Assumptions scaled_momenta_constant.
Print Assumptions repindex_tracks_partial.
Print Assumptions detailed_balance.
Print Assumptions kinetic_energy_drops_out.
Print Assumptions gle_scaling_refuted.
Print Assumptions gle_scaling_partial.
Print Assumptions initial_weights_used.
Print Assumptions weights_frozen.
Print Assumptions hamiltonian_exchange_refuted.
Print Assumptions hamiltonian_exchange_always_accepted.
Print Assumptions weights_switch_bias_off.
Print Assumptions hamiltonian_forces_refuted.
Print Assumptions explicit_bias_used_partial.
