(** * Inputs of what acts on several systems: theorems of record *)
From Coq Require Import List Arith Lia Bool String Reals Lra Permutation.
From Verif Require Import SmoModel.
Import ListNotations.
Open Scope list_scope.
Open Scope string_scope.

(** What an input says. *)
Definition says (i : base) (s : smotion) : Prop :=
  match s with
  | Idle => mode i = "dummy" | Exchange st ix rs f => mode i = "remd" /\ fremd i = Remd st rs f ix
  | Meta ffs e => mode i = "metad" /\ fmetad i = Metad ffs e | Driven ffs => mode i = "dmd" /\ fdmd i = ffs | Several _ => False
  end.
Theorem smotion_built i s : In (mode i) ["dummy"; "remd"; "metad"; "dmd"] -> (fetch_base i = s <-> says i s).
Proof.
  intros O. unfold fetch_base. destruct i as [m [st rs f ix] [ff e] d]. cbn in O |- *. destruct O as [<-|[<-|[<-|[<-|[]]]]]; cbn.
  all: split; [intros <-; cbn; auto|]; destruct s; cbn; intuition (try congruence; try discriminate).
Qed.
Definition one (s : smotion) : Prop := match s with Several _ => False | _ => True end.
Lemma one_stored s : one s -> exists i, store_base s = Some i /\ fetch_base i = s /\ mode i <> "multi".
Proof. destruct s; cbn; try easy; intros _; eexists; (split; [reflexivity|]); (split; [reflexivity|discriminate]). Qed.
Lemma list_stored l : Forall one l -> exists is, collect store_base l = Some is /\ map fetch_base is = l.
Proof. induction 1 as [|s l Hs _ [is [E1 E2]]]; [now exists []|]. destruct (one_stored s Hs) as (i & S & F & _). exists (i :: is). cbn. now rewrite S, E1, F, E2. Qed.
Lemma base_one i : one (fetch_base i).
Proof. unfold fetch_base. destruct (String.eqb (mode i) "remd"), (String.eqb (mode i) "metad"), (String.eqb (mode i) "dmd"); exact I. Qed.
(** What comes from an input can be stored and comes back the same. *)
Theorem smotion_restart i : exists j, store (fetch i) = Some j /\ fetch j = fetch i.
Proof.
  assert (O : forall s, one s -> exists j, store s = Some j /\ fetch j = s).
  { intros s H. destruct (one_stored s H) as (j & S & F & M). exists (j, []). split; [destruct s; try easy; cbn in S |- *; now injection S as <-|].
    unfold fetch. cbn [fst]. destruct (String.eqb_spec (mode j) "multi"); [contradiction|exact F]. }
  unfold fetch at 1 3. destruct (String.eqb (mode (fst i)) "multi"); [|apply O, base_one].
  destruct (list_stored (map fetch_base (snd i))) as (is & E1 & E2); [apply Forall_forall; intros x Hx; apply in_map_iff in Hx; destruct Hx as [y [<- _]]; apply base_one|].
  cbn [store]. rewrite E1. eexists. split; [reflexivity|]. unfold fetch. cbn [fst snd mode String.eqb Ascii.eqb Bool.eqb]. now rewrite E2.
Qed.
(** An input inside another may have the mode multi, which is allowed, but then does nothing. *)
Theorem inner_multi_refuted : exists i j, In (mode j) options /\ mode j <> "dummy" /\ snd i = [j] /\ fetch i = Several [Idle].
Proof. exists (Base "multi" (fremd empty) (fmetad empty) [], [Base "multi" (Remd 10 true "file" []) (fmetad empty) []]), (Base "multi" (Remd 10 true "file" []) (fmetad empty) []). cbn. repeat split; [tauto|discriminate]. Qed.
Print Assumptions smotion_built.
Print Assumptions smotion_restart.
Print Assumptions inner_multi_refuted.
(** ** Exchange indices *)
(** A run starts with each system at its own place; whatever exchanges happened, binding again what was stored goes
    on with the same places; a list for another number of systems is refused. *)
Theorem index_bound n : bind_index n [] = Some (seq 0 n) /\ (forall p, Permutation p (seq 0 n) -> bind_index n p = Some p) /\
  (forall ix, bind_index n ix = None <-> ix <> [] /\ List.length ix <> n).
Proof.
  unfold bind_index. repeat split.
  - intros p P. pose proof (Permutation_length P) as L. rewrite seq_length in L. rewrite L. destruct (Nat.eqb_spec n 0) as [->|N]; [|now rewrite Nat.eqb_refl].
    apply Permutation_sym in P. cbn in P. apply Permutation_nil in P. now rewrite P.
  - intros ->. discriminate.
  - intros E. destruct ix as [|x ix]; [discriminate|]. cbn [List.length Nat.eqb] in *. destruct (Nat.eqb_spec n (S (List.length ix))); [discriminate|]. congruence.
  - intros [N L]. destruct ix as [|x ix]; [easy|]. cbn [List.length Nat.eqb] in *. destruct (Nat.eqb_spec n (S (List.length ix))); [congruence|reflexivity].
Qed.
(** ** Updates *)
(** The biases that are updated are the named ones, in their order; refused exactly if a named one cannot be. *)
Theorem updates named has biases : (forall u, updated named has biases = Some u -> u = filter (fun k => if in_dec string_dec k named then true else false) biases) /\
  (updated named has biases = None <-> exists k, In k biases /\ In k named /\ has k = false).
Proof.
  induction biases as [|k r [IH1 IH2]]; cbn [updated filter].
  - split; [intros u E; now injection E|]. split; [discriminate|]. now intros [k [[] _]].
  - assert (N : existsb (String.eqb k) named = true <-> In k named).
    { rewrite existsb_exists. split; [intros [x [H E]]; apply String.eqb_eq in E; now subst|]. intros H. exists k. split; [exact H|apply String.eqb_refl]. }
    destruct (existsb (String.eqb k) named), (in_dec string_dec k named) as [I|I]; try (exfalso; intuition congruence).
    + destruct (has k) eqn:H.
      * destruct (updated named has r) as [u0|].
        -- split; [intros u E; injection E as <-; f_equal; now apply IH1|]. split; [discriminate|]. intros [x [[<-|X] [Y Z]]]; [congruence|]. assert (Some u0 = None) by (apply IH2; eauto). discriminate.
        -- split; [discriminate|]. split; [|reflexivity]. intros _. destruct (proj1 IH2 eq_refl) as [x [X Y]]. exists x. split; [now right|exact Y].
      * split; [discriminate|]. split; [|reflexivity]. intros _. exists k. split; [now left|]. auto.
    + split; [exact IH1|]. rewrite IH2. split; intros [x [X Y]]; exists x; (split; [|exact Y]); [now right|]. destruct X as [<-|X]; [tauto|exact X].
Qed.
Print Assumptions index_bound.
Print Assumptions updates.
Example remd_case : fetch (Base "multi" (fremd empty) (fmetad empty) [], [Base "remd" (Remd 10 true "file" [1%nat; 0%nat]) (fmetad empty) []; Base "metad" (fremd empty) (Metad ["plumed"] false) []]) =
  Several [Exchange 10 [1%nat; 0%nat] true "file"; Meta ["plumed"] false].
Proof. reflexivity. Qed.
Example index_case : bind_index 3 [2%nat; 0%nat; 1%nat] = Some [2%nat; 0%nat; 1%nat] /\ bind_index 3 [0%nat] = None.
Proof. split; reflexivity. Qed.
Example update_case : updated ["plumed"] (fun k => String.eqb k "plumed") ["other"; "plumed"] = Some ["plumed"].
Proof. reflexivity. Qed.
