(** * Inputs of thermostats and barostats: theorems of record *)
From Coq Require Import List Arith Lia Bool String Reals Lra.
From Verif Require Import BathModel.
Import ListNotations.
Open Scope list_scope.
Open Scope string_scope.

Lemma member_in s l : member s l = true <-> In s l.
Proof. unfold member. rewrite existsb_exists. split; [intros [x [H E]]; apply String.eqb_eq in E; now subst|]. intros H. exists s. split; [exact H|apply String.eqb_refl]. Qed.
(** ** Thermostats *)
(** What can be stored and come back: no thermostats inside thermostats inside, a covariance that is not empty, a
    known flip. *)
Definition sound (k : sort) : Prop := match k with GLE _ C _ | NMGLE _ C _ | NMGLEG _ C _ _ => C <> Some [] | FFL _ f => f = "soft" \/ f = "hard" \/ f = "rescale" \/ f = "none" | _ => True end.
Definition simple (t : thermo) : Prop := match t with One k _ => sound k | Multi _ _ => False end.
Definition sound_thermo (t : thermo) : Prop := match t with One k _ => sound k | Multi l _ => Forall simple l end.
(** What an input says of the thermostat. *)
Definition agrees (i : tin) (k : sort) : Prop :=
  let C := match mC i with [] => None | c => Some c end in
  match k with
  | Plain => mode i = "" /\ True | Langevin t => mode i = "langevin" /\ t = tau i | SVR t => mode i = "svr" /\ t = tau i
  | PILE_L t l c => mode i = "pile_l" /\ t = tau i /\ l = lambda i /\ c = centroid_t i
  | PILE_G t l c => mode i = "pile_g" /\ t = tau i /\ l = lambda i /\ c = centroid_t i
  | GLE A c s => mode i = "gle" /\ A = mA i /\ c = C /\ s = ms i
  | NMGLE A c s => mode i = "nm_gle" /\ A = mA i /\ c = C /\ s = ms i
  | NMGLEG A c t s => mode i = "nm_gle_g" /\ A = mA i /\ c = C /\ t = tau i /\ s = ms i
  | CL t it dt ap => mode i = "cl" /\ t = tau i /\ it = intau i /\ dt = idtau i /\ ap = apat i
  | FFL t f => mode i = "ffl" /\ t = tau i /\ f = flip i /\ (f = "soft" \/ f = "hard" \/ f = "rescale" \/ f = "none")
  end.
Lemma rC_spec i : rC i = match mC i with [] => None | c => Some c end.
Proof. unfold rC. now destruct (mC i). Qed.
Lemma flips_spec f : member f flips = true <-> f = "soft" \/ f = "hard" \/ f = "rescale" \/ f = "none".
Proof. rewrite member_in. cbn. intuition. Qed.
Ltac modes i := repeat match goal with |- context [String.eqb (mode i) ?m] => destruct (String.eqb_spec (mode i) m) as [?M|?N] end.
(** A thermostat is built exactly as its input says. *)
Theorem thermostat_built i t : fetch_base i = Val t <-> exists k, t = One k (ethermo i) /\ agrees i k.
Proof.
  unfold fetch_base, agrees. rewrite rC_spec. split.
  - modes i; try (intros E; injection E as <-; eexists; split; [reflexivity|]; cbn; auto 8; fail); try discriminate.
    destruct (member (flip i) flips) eqn:F; [|discriminate]. intros E. injection E as <-. eexists. split; [reflexivity|]. cbn. apply flips_spec in F. auto.
  - intros [k [-> H]]. destruct k; destruct H as [M H]; rewrite M; cbn [String.eqb Ascii.eqb Bool.eqb]; repeat match goal with X : _ /\ _ |- _ => destruct X end; subst; try reflexivity.
    rewrite (proj2 (flips_spec (flip i))) by assumption. reflexivity.
Qed.
Lemma built_sound i t : fetch_base i = Val t -> simple t.
Proof. intros E. apply thermostat_built in E. destruct E as [k [-> A]]. destruct k; cbn in *; try exact I; try tauto; destruct A as (_ & _ & -> & _); destruct (mC i); discriminate. Qed.
(** Storing over an input that held another thermostat: only a covariance may stay. *)
Theorem stored_over i k e : sound k -> (match k with GLE _ None _ | NMGLE _ None _ | NMGLEG _ None _ _ => mC i = [] | _ => True end) -> fetch_base (store_one i k e) = Val (One k e).
Proof.
  intros S K. apply thermostat_built. exists k. destruct i as [m e0 t l c A C s it dt ap f]. destruct k as [| | | | |A' [C'|] s'|A' [C'|] s'|A' [C'|] t' s'| |t' f']; cbn in *; repeat split; auto.
  all: try (destruct C'; [now contradiction S|reflexivity]). all: subst; reflexivity.
Qed.
Lemma collect_ok {A B} (f : A -> res B) (g : B -> A) l : Forall (fun b => f (g b) = Val b) l -> collect f (map g l) = Val l.
Proof. induction 1 as [|b l Hb _ IH]; [reflexivity|]. cbn. now rewrite Hb, IH. Qed.
Lemma simple_stored l : Forall simple l -> exists ts, collect (store_base blank) l = Val ts /\ collect fetch_base ts = Val l.
Proof.
  induction 1 as [|t l Ht _ [ts [E1 E2]]]; [now exists []|]. destruct t as [k e|]; [|destruct Ht]. exists (store_one blank k e :: ts). cbn [collect store_base].
  rewrite E1. rewrite stored_over, E2; [split; reflexivity|exact Ht|]. now destruct k as [| | | | |? [?|] ?|? [?|] ?|? [?|] ? ?| |].
Qed.
Theorem thermostat_stored t : sound_thermo t -> exists i, store t = Val i /\ fetch i = Val t.
Proof.
  destruct t as [k e|l e]; cbn [sound_thermo store]; intros S.
  - exists (store_one blank k e, []). split; [reflexivity|]. unfold fetch. cbn [fst].
    replace (String.eqb (mode (store_one blank k e)) "multi") with false by (now destruct k). apply stored_over; [exact S|]. now destruct k as [| | | | |? [?|] ?|? [?|] ?|? [?|] ? ?| |].
  - destruct (simple_stored l S) as [ts [-> E]]. eexists. split; [reflexivity|]. unfold fetch. cbn [fst snd mode ethermo String.eqb Ascii.eqb Bool.eqb]. now rewrite E.
Qed.
Lemma collect_forall {A B} (f : A -> res B) (P : B -> Prop) l r : (forall a b, f a = Val b -> P b) -> collect f l = Val r -> Forall P r.
Proof.
  intros H. revert r. induction l as [|a l IH]; cbn; intros r E; [injection E as <-; constructor|].
  destruct (f a) eqn:F; [|discriminate]. destruct (collect f l) eqn:G; [|discriminate]. injection E as <-. constructor; [now apply (H a)|now apply IH].
Qed.
(** Every thermostat that comes from an input can be stored and comes back the same. *)
Theorem thermostat_restart i t : fetch i = Val t -> exists j, store t = Val j /\ fetch j = Val t.
Proof.
  intros E. apply thermostat_stored. unfold fetch in E. destruct (String.eqb (mode (fst i)) "multi").
  - destruct (collect fetch_base (snd i)) eqn:G; [|discriminate]. injection E as <-. cbn. now apply (collect_forall _ _ _ _ built_sound) in G.
  - apply built_sound in E. destruct t; [exact E|destruct E].
Qed.
(** What is refused: thermostats inside thermostats inside, and unknown flips. *)
Theorem thermostat_refused i : In (mode i) options -> (exists e, fetch_base i = Raise e) <->
  mode i = "multi" \/ mode i = "ffl" /\ ~ (flip i = "soft" \/ flip i = "hard" \/ flip i = "rescale" \/ flip i = "none").
Proof.
  intros O. unfold fetch_base. split.
  - intros [e E]. revert E. modes i; try discriminate.
    + destruct (member (flip i) flips) eqn:F; [discriminate|]. intros _. right. split; [exact M|]. intros X. apply flips_spec in X. congruence.
    + intros _. left. cbn in O. intuition congruence.
  - intros [M|[M F]]; rewrite M; cbn [String.eqb Ascii.eqb Bool.eqb]; [now exists TypeError|]. destruct (member (flip i) flips) eqn:G; [apply flips_spec in G; contradiction|now exists KeyError].
Qed.
(** So an input with an allowed mode that passes its checks may not be built. *)
Theorem multi_refuted : exists i, In (mode (fst i)) options /\ Forall (fun j => In (mode j) options /\ check_base j = true) (snd i) /\ check_base (fst i) = true /\ fetch i = Raise TypeError.
Proof. exists (Tin "multi" 0 0 1 0 [] [] [] 0 0 0 "rescale", [Tin "multi" 0 0 1 0 [] [] [] 0 0 0 "rescale"]). cbn. repeat split; try tauto. constructor; [|constructor]. cbn. tauto. Qed.
(** The checks: time constants are positive, those of cl not negative. *)
Theorem thermostat_checked i : check_base i = true <->
  (In (mode i) ["langevin"; "svr"; "pile_l"; "pile_g"; "nm_gle_g"; "ffl"] -> (0 < tau i)%R) /\
  (mode i = "cl" -> (0 <= tau i)%R /\ (0 <= intau i)%R /\ (0 <= idtau i)%R /\ (0 <= apat i)%R).
Proof.
  unfold check_base. set (L := ["langevin"; "svr"; "pile_l"; "pile_g"; "nm_gle_g"; "ffl"]).
  pose proof (member_in (mode i) L) as ML. unfold le0, lt0. destruct (String.eqb_spec (mode i) "cl") as [M|N].
  - assert (F : member (mode i) L = false) by (rewrite M; reflexivity). rewrite F in ML |- *. cbn [andb].
    destruct (Rlt_dec (tau i) 0), (Rlt_dec (intau i) 0), (Rlt_dec (idtau i) 0), (Rlt_dec (apat i) 0); cbn [orb]; split; try discriminate; try (intros [_ H]; specialize (H M); lra).
    intros _. split; [|intros _; lra]. intros X. apply ML in X. discriminate.
  - cbn [andb]. destruct (member (mode i) L); cbn [andb].
    + destruct (Rle_dec (tau i) 0); split; try discriminate; [intros [H _]; specialize (H (proj1 ML eq_refl)); lra| |reflexivity]. intros _. split; [intros _; lra|]. intros X. now contradiction N.
    + split; [|reflexivity]. intros _. split; [|intros X; now contradiction N]. intros X. apply ML in X. discriminate.
Qed.
Print Assumptions thermostat_built.
Print Assumptions stored_over.
Print Assumptions thermostat_stored.
Print Assumptions thermostat_restart.
Print Assumptions thermostat_refused.
Print Assumptions multi_refuted.
Print Assumptions thermostat_checked.

(** ** Barostats *)
Definition entry (f : string) : Prop := In f ["xx"; "xy"; "xz"; "yx"; "yy"; "yz"; "zx"; "zy"; "zz"; "offdiagonal"].
Lemma known_spec h : known h = true <-> Forall entry h.
Proof. unfold known. rewrite forallb_forall, Forall_forall. split; intros H x Hx; specialize (H x Hx); now apply member_in. Qed.
Lemma diagonal_spec h : existsb (fun x => member x h) ["xx"; "yy"; "zz"] = true <-> In "xx" h \/ In "yy" h \/ In "zz" h.
Proof. cbn [existsb]. rewrite !orb_true_iff, !member_in. intuition discriminate. Qed.
(** A barostat is built exactly in these cases. *)
Theorem barostat_built i b : fetch_baro i = Val b <->
  (bvol i = true -> bmode i = "flexible" /\ ~ In "xx" (bhfix i) /\ ~ In "yy" (bhfix i) /\ ~ In "zz" (bhfix i)) /\
  match b with
  | Dummy t => bmode i = "dummy" /\ t = btau i
  | BZP t p => bmode i = "isotropic" /\ bhfix i = [] /\ t = btau i /\ p = match bp i with Some p => p | None => [0%R] end
  | SCBZP t p => bmode i = "sc-isotropic" /\ bhfix i = [] /\ t = btau i /\ p = match bp i with Some p => p | None => [0%R] end
  | MTK t p h v => bmode i = "flexible" /\ Forall entry (bhfix i) /\ t = btau i /\ p = match bp i with Some p => p | None => repeat 0%R 9 end /\ h = bhfix i /\ v = bvol i
  | RGB t p h h0 => bmode i = "anisotropic" /\ Forall entry (bhfix i) /\ bh0 i = Some h0 /\ t = btau i /\ p = match bp i with Some p => p | None => repeat 0%R 9 end /\ h = bhfix i
  end.
Proof.
  pose proof (diagonal_spec (bhfix i)) as D. pose proof (known_spec (bhfix i)) as K. unfold fetch_baro. split.
  - destruct (bvol i && negb (String.eqb (bmode i) "flexible")) eqn:G1; [discriminate|].
    destruct (bvol i && existsb (fun x => member x (bhfix i)) ["xx"; "yy"; "zz"]) eqn:G2; [discriminate|]. intros E. split.
    + intros V. rewrite V in G1, G2. cbn [andb] in G1, G2. apply negb_false_iff, String.eqb_eq in G1. rewrite G2 in D. split; [exact G1|]. repeat split; intros X; assert (false = true) by (apply D; auto); discriminate.
    + revert E. repeat match goal with |- context [String.eqb (bmode i) ?m] => destruct (String.eqb_spec (bmode i) m) as [?M|?N] end; try discriminate.
      * destruct (bhfix i) eqn:H; cbn; [|discriminate]. intros E. injection E as <-. auto.
      * destruct (bhfix i) eqn:H; cbn; [|discriminate]. intros E. injection E as <-. auto.
      * destruct (known (bhfix i)); [|discriminate]. intros E. injection E as <-. repeat split; auto. now apply K.
      * destruct (known (bhfix i)); [|discriminate]. destruct (bh0 i); [|discriminate]. intros E. injection E as <-. repeat split; auto. now apply K.
      * intros E. injection E as <-. auto.
  - intros [H1 H2].
    assert (G1 : bvol i && negb (String.eqb (bmode i) "flexible") = false).
    { destruct (bvol i); [|reflexivity]. destruct (H1 eq_refl) as [-> _]. reflexivity. }
    assert (G2 : bvol i && existsb (fun x => member x (bhfix i)) ["xx"; "yy"; "zz"] = false).
    { destruct (bvol i); [|reflexivity]. destruct (H1 eq_refl) as (_ & A & B & C). cbn [andb]. destruct (existsb _ _); [|reflexivity]. destruct (proj1 D eq_refl) as [X|[X|X]]; contradiction. }
    rewrite G1, G2. clear G1 G2 H1 D. destruct b; destruct H2 as [M H]; rewrite M; cbn [String.eqb Ascii.eqb Bool.eqb].
    + now subst.
    + destruct H as (-> & -> & ->). reflexivity.
    + destruct H as (-> & -> & ->). reflexivity.
    + destruct H as (F & -> & -> & -> & ->). rewrite (proj2 K F). reflexivity.
    + destruct H as (F & -> & -> & -> & ->). rewrite (proj2 K F). reflexivity.
Qed.
(** Every barostat that comes from an input comes back from what is stored of it. *)
Theorem barostat_restart i b : fetch_baro i = Val b -> fetch_baro (store_baro b) = Val b.
Proof.
  intros E. apply barostat_built in E. destruct E as [V E]. apply barostat_built. destruct b; cbn; repeat split; try discriminate; try tauto.
  all: destruct E as (E1 & E2 & E3 & E4 & E5 & E6); subst; try (apply V; assumption); try assumption. 
Qed.
Print Assumptions barostat_built.
Print Assumptions barostat_restart.
Example multi_case : fetch (Tin "multi" 3 0 1 0 [] [] [] 0 0 0 "rescale", [Tin "langevin" 1 100 1 0 [] [] [] 0 0 0 "rescale"; Tin "gle" 2 0 1 0 [1%R] [] [] 0 0 0 "rescale"]) =
  Val (Multi [One (Langevin 100) 1; One (GLE [1%R] None []) 2] 3).
Proof. reflexivity. Qed.
Example check_case : check_base (Tin "langevin" 1 100 1 0 [] [] [] 0 0 0 "rescale") = true.
Proof. apply thermostat_checked. cbn. split; [lra|discriminate]. Qed.
Example baro_case : fetch_baro (Bin "flexible" 2 None None ["xy"; "zx"] true) = Val (MTK 2 (repeat 0%R 9) ["xy"; "zx"] true).
Proof. reflexivity. Qed.
