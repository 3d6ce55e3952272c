(** * Building the motion classes from the input, and saving them: theorems *)
From Coq Require Import String List Bool Arith Lia.
From Verif Require Import BuildModel.
Import ListNotations.
Open Scope string_scope.
Open Scope list_scope.

(** ** The call *)
Lemma mem_in k l : mem k l = true <-> In k l.
Proof.
  unfold mem. rewrite existsb_exists. split.
  - intros [x [H E]]. apply String.eqb_eq in E. now subst.
  - intros H. exists k. split; [exact H | apply String.eqb_refl].
Qed.
Lemma nodup_spec l : nodup l = true <-> NoDup l.
Proof.
  induction l as [|k t IH]; cbn [nodup]; [split; [constructor | reflexivity]|].
  rewrite andb_true_iff, negb_true_iff, IH. split.
  - intros [H N]. constructor; [|exact N]. intro I. apply mem_in in I. congruence.
  - intros N. inversion N as [|? ? H N']; subst. split; [|exact N'].
    destruct (mem k t) eqn:E; [|reflexivity]. apply mem_in in E. contradiction.
Qed.
(** A call goes through when no name is repeated, every name is known and nothing required is absent. *)
Theorem py_call_spec sg kw : py_call sg kw = true <->
  NoDup kw /\ (rest sg = false -> incl kw (params sg)) /\ incl (required sg) kw.
Proof.
  unfold py_call. rewrite !andb_true_iff, nodup_spec, !forallb_forall. split.
  - intros [[N K] Q]. repeat apply conj; [exact N | | ].
    + intros Hr k I. specialize (K k I). rewrite Hr, orb_false_r in K. now apply mem_in.
    + intros k I. apply mem_in. now apply Q.
  - intros (N & K & Q). repeat apply conj; [exact N | | ].
    + intros k I. destruct (rest sg) eqn:E; [now rewrite orb_true_r|]. rewrite orb_false_r. apply mem_in. now apply K.
    + intros k I. apply mem_in. now apply Q.
Qed.
(** C205: every motion mode but one is built from the section of the input that belongs to it. *)
Theorem modes_build e : In e entries -> builds e = true.
Proof. intros H. assert (A : forallb builds entries = true) by (vm_compute; reflexivity). rewrite forallb_forall in A. now apply A. Qed.
(** The first class receives every field of the section, and nothing else. *)
Theorem modes_receive e l t : In e entries -> e_levels e = l :: t -> rest (l_sig l) = false -> incl (e_keys e) (params (l_sig l)) /\ NoDup (e_keys e) /\ incl (required (l_sig l)) (e_keys e).
Proof.
  intros H E R. pose proof (modes_build e H) as B. unfold builds in B. rewrite E in B. cbn [construct] in B.
  apply andb_true_iff in B. destruct B as [B _]. apply py_call_spec in B. destruct B as (N & K & Q). auto.
Qed.
Example receive_case : In (std "neb" keys_neb sig_neb) entries /\ In "climb_bead" (e_keys (std "neb" keys_neb sig_neb)).
Proof. split; [right; right; left; reflexivity | apply mem_in; vm_compute; reflexivity]. Qed.
(** Constrained dynamics is never built, whatever is given: its constructor calls that of Motion with a name which is not a parameter. *)
Theorem constrained_build_refuted kw : construct (e_levels constrained) kw = false.
Proof. cbn [constrained e_levels construct]. apply andb_false_iff. right. vm_compute. reflexivity. Qed.
(** Moreover the input gives it a name that it does not know. *)
Theorem constrained_input_refuted : builds constrained = false /\ py_call sig_constrained_dynamics (e_keys constrained) = false /\
  ~ In "fixatoms_dof" (params sig_constrained_dynamics) /\ In "fixatoms_dof" (e_keys constrained).
Proof.
  repeat apply conj; [apply constrained_build_refuted | vm_compute; reflexivity | | apply mem_in; vm_compute; reflexivity].
  intro H. apply mem_in in H. vm_compute in H. discriminate.
Qed.
(** A field added to a section but not to its class stops the mode from being built. *)
Theorem unknown_field_stops e l t k : e_levels e = l :: t -> rest (l_sig l) = false -> ~ In k (params (l_sig l)) -> construct (e_levels e) (k :: e_keys e) = false.
Proof.
  intros E R N. rewrite E. cbn [construct]. destruct (py_call (l_sig l) (k :: e_keys e)) eqn:P; [|reflexivity].
  apply py_call_spec in P. destruct P as (_ & K & _). exfalso. apply N. apply (K R). now left.
Qed.

(** ** Saving and building again *)
Definition ok (s : saver) (a : string) : bool :=
  match assoc a (s_cons s) with
  | Some (Arg k) => match assoc k (s_store s) with Some b => String.eqb a b | None => false end
  | Some (Const _) => true
  | None => false
  end.
(** An attribute survives a restart: for values of any type and any state, what is built again has the value of what was saved. *)
Definition survives (s : saver) (a : string) : Prop := forall (V : Type) (dflt const st : string -> V),
  (forall b c, assoc b (s_cons s) = Some (Const c) -> st b = const c) -> rebuilt s dflt const st a = Some (st a).
(** It does exactly when the table takes its field from the same attribute. *)
Theorem survives_iff s a : survives s a <-> ok s a = true.
Proof.
  unfold survives, ok, rebuilt, section. split.
  - intros H. destruct (assoc a (s_cons s)) as [[k|c]|] eqn:E; [| reflexivity |].
    + destruct (assoc k (s_store s)) as [b|] eqn:F.
      * set (const := fun _ : string => false).
        set (st := fun x : string => match assoc x (s_cons s) with Some (Const _) => false | _ => String.eqb x a end).
        specialize (H bool (fun _ => false) const st). rewrite ?E, ?F in H; cbn beta iota in H.
        assert (C : forall b c, assoc b (s_cons s) = Some (Const c) -> st b = const c) by (intros b0 c G; unfold st; now rewrite G).
        assert (SA : st a = true) by (unfold st; rewrite E; apply String.eqb_refl).
        specialize (H C). injection H as H. rewrite SA in H. unfold st in H. destruct (assoc b (s_cons s)) as [[?|?]|]; try discriminate H; rewrite String.eqb_sym; exact H.
      * set (st := fun x : string => match assoc x (s_cons s) with Some (Const _) => false | _ => true end).
        specialize (H bool (fun _ => false) (fun _ => false) st). rewrite ?E, ?F in H; cbn beta iota in H.
        assert (C : forall b c, assoc b (s_cons s) = Some (Const c) -> st b = false) by (intros b0 c G; unfold st; now rewrite G).
        assert (SA : st a = true) by (unfold st; now rewrite E).
        specialize (H C). injection H as H. rewrite SA in H. discriminate.
    + specialize (H bool (fun _ => false) (fun _ => false) (fun _ => false)). rewrite ?E in H. specialize (H (fun _ _ _ => eq_refl)). discriminate.
  - intros H V dflt const st C. destruct (assoc a (s_cons s)) as [[k|c]|] eqn:E; [| | discriminate].
    + destruct (assoc k (s_store s)) as [b|]; [|discriminate]. apply String.eqb_eq in H. now subst.
    + now rewrite (C a c E).
Qed.
Definition attrs (s : saver) : list string := map fst (s_cons s).
Definition lost (s : saver) : list string := filter (fun a => negb (ok s a)) (attrs s).
Lemma lost_spec s a : In a (attrs s) -> (In a (lost s) <-> ~ survives s a).
Proof.
  intros I. unfold lost. rewrite filter_In, survives_iff. destruct (ok s a); cbn [negb]; split.
  - intros [_ H]. discriminate.
  - intros H. now contradiction H.
  - intros _ H. discriminate.
  - intros _. now split.
Qed.
Lemma all_survive s : lost s = [] -> forall a, In a (attrs s) -> survives s a.
Proof.
  intros E a I. apply survives_iff. destruct (ok s a) eqn:O; [reflexivity|]. exfalso.
  assert (H : In a (lost s)) by (unfold lost; apply filter_In; split; [exact I | now rewrite O]). rewrite E in H. destruct H.
Qed.
Definition saver_of (n : string) : option saver := find (fun s => String.eqb (s_name s) n) savers.
(** C206: the sections that lose nothing. *)
Theorem sections_kept n s a : In n ["vibrations"; "normalmodes"; "alchemy"; "atomswap"; "t_ramp"; "p_ramp"; "dynamics"; "driven_dynamics"] ->
  saver_of n = Some s -> In a (attrs s) -> survives s a.
Proof.
  intros I E J. apply all_survive; [|exact J].
  repeat (destruct I as [<-|I]; [vm_compute in E; injection E as <-; vm_compute; reflexivity|]). destruct I.
Qed.
Example kept_case : exists s, saver_of "driven_dynamics" = Some s /\ In "Born_Charges" (attrs s).
Proof. eexists. split; [vm_compute; reflexivity | apply mem_in; vm_compute; reflexivity]. Qed.
(** Those that lose something, and exactly what. *)
Theorem sections_lost : (forall s, saver_of "neb" = Some s -> lost s = ["corrections"]) /\
  (forall s, saver_of "scp" = Some s -> lost s = ["wthreshold"; "precheck"; "checkweights"]) /\
  (forall s, saver_of "planetary" = Some s -> lost s = ["ccdyn.fixcom"; "ccdyn.fixatoms_dof"; "nbeads"]) /\
  (forall s, saver_of "al-kmc" = Some s -> lost s = ["optimizer.fixcom"; "optimizer.fixatoms_dof"; "optimizer"; "neval"]).
Proof. repeat apply conj; intros s E; vm_compute in E; injection E as <-; vm_compute; reflexivity. Qed.
Theorem planetary_fixed_refuted : exists s, saver_of "planetary" = Some s /\ In "ccdyn.fixatoms_dof" (attrs s) /\ ~ survives s "ccdyn.fixatoms_dof" /\
  forall V (dflt const st : string -> V), (forall b c, assoc b (s_cons s) = Some (Const c) -> st b = const c) ->
    rebuilt s dflt const st "ccdyn.fixatoms_dof" = Some (const "empty").
Proof.
  eexists. split; [vm_compute; reflexivity|]. repeat apply conj.
  - apply mem_in. vm_compute. reflexivity.
  - rewrite survives_iff. vm_compute. discriminate.
  - intros V dflt const st C. specialize (C "fixatoms_dof" "empty" eq_refl). cbn. now rewrite C.
Qed.
(** What is lost comes back as the default of the field. *)
Theorem kmc_optimizer_refuted : exists s, saver_of "al-kmc" = Some s /\ ~ survives s "optimizer" /\
  forall V (dflt const st : string -> V), rebuilt s dflt const st "optimizer" = Some (dflt "optimizer") /\ rebuilt s dflt const st "neval" = Some (dflt "neval").
Proof. eexists. split; [vm_compute; reflexivity|]. split; [rewrite survives_iff; vm_compute; discriminate | intros; split; reflexivity]. Qed.
Theorem scp_weights_refuted : exists s, saver_of "scp" = Some s /\ ~ survives s "wthreshold" /\ ~ survives s "checkweights" /\ ~ survives s "precheck".
Proof. eexists. split; [vm_compute; reflexivity|]. repeat apply conj; rewrite survives_iff; vm_compute; discriminate. Qed.

(** C207: geometry optimisation.  Whatever the optimiser of the mode reads survives, except the options of the line search of BFGS and L-BFGS. *)
Theorem geop_kept m a : In m geop_modes -> In a (geop_reads m) -> ~ ((m = "bfgs" \/ m = "lbfgs") /\ a = "ls_options") -> survives (geop m) a.
Proof.
  intros I J N. apply survives_iff.
  repeat (destruct I as [<-|I]; [vm_compute in J; repeat (destruct J as [<-|J]; [first [vm_compute; reflexivity | exfalso; apply N; split; [tauto|reflexivity]]|]); destruct J|]).
  destruct I.
Qed.
Theorem geop_ls_options_refuted m : m = "bfgs" \/ m = "lbfgs" -> In "ls_options" (geop_reads m) /\ ~ survives (geop m) "ls_options" /\
  forall V (dflt const st : string -> V), rebuilt (geop m) dflt const st "ls_options" = Some (dflt "ls_options").
Proof.
  intros [-> | ->]; (split; [apply mem_in; vm_compute; reflexivity|]; split; [rewrite survives_iff; vm_compute; discriminate | reflexivity]).
Qed.
Example geop_case : In "cg" geop_modes /\ In "old_f" (geop_reads "cg").
Proof. split; apply mem_in; vm_compute; reflexivity. Qed.
(** The reads are attributes that the constructor sets. *)
Theorem geop_reads_set m a : In m geop_modes -> In a (geop_reads m) -> In a (attrs (geop m)).
Proof.
  intros I J. apply mem_in.
  repeat (destruct I as [<-|I]; [vm_compute in J; repeat (destruct J as [<-|J]; [vm_compute; reflexivity|]); destruct J|]).
  destruct I.
Qed.

(** C208: instantons. *)
Theorem inst_lost_second_order opt fr sd fin : opt <> "lbfgs" ->
  lost (inst opt fr sd fin) = (if fr then [] else ["fric_spec_dens"; "fric_spec_dens_ener"]) ++ ["old_x"] ++ (if (fr && sd)%bool then ["eta0"] else []) ++ ["hessian_init"].
Proof.
  intros N. apply String.eqb_neq in N. unfold lost, attrs, ok, inst, inst_cons, inst_store. cbn [s_cons s_store]. rewrite N.
  destruct fr, sd; vm_compute; reflexivity.
Qed.
Theorem inst_lost_lbfgs fr sd fin : lost (inst "lbfgs" fr sd fin) = (if fr then [] else ["fric_spec_dens"; "fric_spec_dens_ener"]) ++ ["old_x"] ++ (if fin then [] else ["hessian"]) ++ ["hessian_asr"].
Proof. destruct fr, sd, fin; vm_compute; reflexivity. Qed.
Theorem inst_hessian_kept opt fr sd fin : opt <> "lbfgs" -> survives (inst opt fr sd fin) "hessian" /\ survives (inst opt fr sd fin) "delta" /\ survives (inst opt fr sd fin) "old_f" /\
  (fr = true -> sd = true -> survives (inst opt fr sd fin) "fric_hessian") /\ (fr = true -> sd = false -> survives (inst opt fr sd fin) "eta0").
Proof.
  intros N. apply String.eqb_neq in N.
  assert (O : forall a, ok (inst opt fr sd fin) a = ok (inst "nichols" fr sd fin) a).
  { intro a. unfold ok, inst, inst_cons, inst_store. cbn [s_cons s_store]. rewrite N. reflexivity. }
  repeat apply conj; intros; apply survives_iff; rewrite O; subst; try (destruct fr, sd; vm_compute; reflexivity); vm_compute; reflexivity.
Qed.
Theorem inst_asr_refuted fr sd fin : In "hessian_asr" (attrs (inst "lbfgs" fr sd fin)) /\ ~ survives (inst "lbfgs" fr sd fin) "hessian_asr".
Proof. destruct fr, sd, fin; (split; [apply mem_in; vm_compute; reflexivity | rewrite survives_iff; vm_compute; discriminate]). Qed.

(** C209: a band that has converged cannot be read back: the stage it is in is not one the input admits. *)
Theorem stages_admitted s : In s neb_stages -> s <> "converged" -> admitted neb_options s = true.
Proof. intros I N. repeat (destruct I as [<-|I]; [first [reflexivity | contradiction]|]). destruct I. Qed.
Theorem stage_converged_refuted : exists s, In s neb_stages /\ admitted neb_options s = false.
Proof. exists "converged". split; [apply mem_in; reflexivity | reflexivity]. Qed.

Print Assumptions py_call_spec.
Print Assumptions modes_build.
Print Assumptions modes_receive.
Print Assumptions constrained_build_refuted.
Print Assumptions constrained_input_refuted.
Print Assumptions unknown_field_stops.
Print Assumptions survives_iff.
Print Assumptions sections_kept.
Print Assumptions sections_lost.
Print Assumptions planetary_fixed_refuted.
Print Assumptions kmc_optimizer_refuted.
Print Assumptions scp_weights_refuted.
Print Assumptions geop_kept.
Print Assumptions geop_ls_options_refuted.
Print Assumptions inst_lost_second_order.
Print Assumptions inst_lost_lbfgs.
Print Assumptions inst_hessian_kept.
Print Assumptions inst_asr_refuted.
Print Assumptions stages_admitted.
Print Assumptions stage_converged_refuted.
