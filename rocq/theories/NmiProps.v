(** * Normal modes, force components and ensembles in checkpoints: theorems of record *)
From Coq Require Import List Arith ZArith Lia Bool String.
From Verif Require Import ExchNM NmiModel.
Import ListNotations.

Section Inputs.
Context {A : Type} (one : A).

(** ** Normal modes *)
(** What is bound from an input: everything as given, the bosons resolved. *)
Theorem modes_bound natoms name (step : A) i n : bind_modes natoms name step (fetch_modes one i) = Some n ->
  style n = i_style i /\ transform n = i_transform i /\ propagator n = i_propagator i /\ freqs n = i_freqs i /\ open_paths n = i_open i /\
  nmts n = i_nmts i /\ threads n = i_threads i /\ float32 n = i_float32 i /\ dt n = step /\
  exists l, bose n = Indices l /\ if i_label i then (forall k, In k l <-> (k < natoms)%nat /\ In (name k) (i_bosons i)) /\ NoDup l
                                  else l = i_bosons i /\ forall k, In k l -> (k < natoms)%nat.
Proof.
  unfold bind_modes, fetch_modes. cbn. destruct (i_label i).
  - pose proof (resolve_labels_spec natoms name (i_bosons i)) as S. destruct (resolve_labels _ _ _) as [l|]; [|discriminate]. cbn. intros E. injection E as <-. cbn.
    repeat split. exists l. split; [reflexivity|exact S].
  - destruct (resolve_bosons natoms (i_bosons i)) as [l|] eqn:R; [|discriminate]. apply resolve_in_range in R. destruct R as [-> R]. cbn. intros E. injection E as <-. cbn.
    repeat split. eexists. split; [reflexivity|]. now split.
Qed.
(** Unless an index or label belongs to no atom, it can be bound. *)
Theorem modes_refused natoms name (step : A) i : bind_modes natoms name step (fetch_modes one i) = None <->
  exists b, In b (i_bosons i) /\ if i_label i then (forall k, (k < natoms)%nat -> name k <> b) else (natoms <= b)%nat.
Proof.
  unfold bind_modes, fetch_modes. cbn. destruct (i_label i).
  - pose proof (resolve_labels_spec natoms name (i_bosons i)) as S. destruct (resolve_labels _ _ _) as [l|] eqn:R; cbn; split; try discriminate; try (intros _; exact S); try reflexivity.
    intros (b & Hb & N). exfalso. unfold resolve_labels in R. destruct (forallb _ _) eqn:F; [|discriminate]. rewrite forallb_forall in F. specialize (F b Hb).
    apply existsb_exists in F. destruct F as (k & Hk & E). apply in_seq in Hk. apply Nat.eqb_eq in E. apply (N k); [lia|exact E].
  - destruct (resolve_bosons natoms (i_bosons i)) as [l|] eqn:R; cbn.
    + apply resolve_in_range in R. destruct R as [_ R]. split; [discriminate|]. intros (b & Hb & N). specialize (R b Hb). lia.
    + split; [|reflexivity]. intros _. unfold resolve_bosons in R. destruct (existsb _ _) eqn:E; [|discriminate]. apply existsb_exists in E. destruct E as (b & Hb & L).
      apply Nat.leb_le in L. eauto.
Qed.
(** A checkpoint of what was bound is bound to the same, for whatever the names of the atoms are then. *)
Theorem modes_restart natoms name name' (step : A) i n : bind_modes natoms name step (fetch_modes one i) = Some n ->
  exists c, store_modes n = Some c /\ i_label c = false /\ bind_modes natoms name' step (fetch_modes one c) = Some n.
Proof.
  intros B. destruct (modes_bound _ _ _ _ _ B) as (_ & _ & _ & _ & _ & _ & _ & _ & D & l & E & H). destruct n as [a b c d e f g h j k]. cbn in D, E |- *. subst. unfold store_modes. cbn.
  eexists. split; [reflexivity|]. split; [reflexivity|]. unfold bind_modes, fetch_modes. cbn.
  assert (R : resolve_bosons natoms l = Some l).
  { apply resolve_in_range. split; [reflexivity|]. destruct (i_label i); [intros x Hx; now apply H|apply H]. }
  now rewrite R.
Qed.
(** Binding what is bound, also to other atoms, changes at most the time step. *)
Theorem modes_rebound natoms natoms' name name' (step step' : A) i n : bind_modes natoms name step (fetch_modes one i) = Some n ->
  exists m, bind_modes natoms' name' step' n = Some m /\ store_modes m = store_modes n /\ dt m = step'.
Proof.
  intros B. destruct (modes_bound _ _ _ _ _ B) as (_ & _ & _ & _ & _ & _ & _ & _ & _ & l & E & _). unfold bind_modes. rewrite E. eexists. split; [reflexivity|].
  unfold store_modes. rewrite E. now split.
Qed.
Theorem modes_copied f (n : @modes A) : copy_modes None n = n /\ freqs (copy_modes (Some f) n) = f /\ store_modes (copy_modes (Some f) n) = option_map (fun i => ModesInput (i_style i) (i_transform i) (i_propagator i) f (i_open i) (i_bosons i) (i_label i) (i_nmts i) (i_threads i) (i_float32 i)) (store_modes n).
Proof. split; [now destruct n|]. split; [reflexivity|]. unfold store_modes, copy_modes. cbn. now destruct (bose n). Qed.

(** ** Force components *)
(** Whatever was stored before. *)
Theorem forces_stored (l : list (@comp A)) extra : store_forces l extra = map (fun c => Some (store_comp c)) l.
Proof.
  unfold store_forces. set (e := if Nat.eqb (List.length extra) (List.length l) then extra else repeat None (List.length l)). assert (L : List.length e = List.length l).
  { unfold e. destruct (Nat.eqb_spec (List.length extra) (List.length l)); [assumption|apply repeat_length]. }
  clearbody e. clear extra. revert e L. induction l as [|c l IH]; intros [|x e] L; try discriminate; [reflexivity|]. cbn. f_equal. apply IH. now injection L.
Qed.
Theorem forces_restart (l : list (@comp A)) extra : fetch_forces (store_forces l extra) = if forallb (fun c => Z.leb 0 (beads c)) l then Some l else None.
Proof.
  rewrite forces_stored. induction l as [|c l IH]; [reflexivity|]. cbn [map fetch_forces forallb]. unfold fetch_comp, store_comp at 1. cbn [c_beads].
  destruct (Z.ltb_spec (beads c) 0), (Z.leb_spec 0 (beads c)); try lia; [reflexivity|]. cbn. rewrite IH. destruct (forallb _ l); [|reflexivity]. now destruct c.
Qed.

(** ** Ensembles *)
Definition good_bias (l : list (@comp A)) := Forall (fun c => (0 <= beads c)%Z) l.
Lemma good_all l : good_bias l -> forallb (fun c => Z.leb 0 (beads c)) l = true.
Proof. intros G. apply forallb_forall. intros c I. apply Z.leb_le. unfold good_bias in G. rewrite Forall_forall in G. now apply G. Qed.
(** A checkpoint of an ensemble that was made by the constructor gives the same ensemble, and binding it again changes nothing. *)
Theorem ens_restart e t p s b bw hw tm nf : let n := bind_ens one nf (new_ens one e t p s b bw hw tm) in good_bias b ->
  fetch_ens one (store_ens n) = Some n /\ bind_ens one nf n = n.
Proof.
  intros n G. split.
  - unfold fetch_ens, store_ens. cbn [e_bias]. assert (B : bias n = b) by reflexivity. rewrite B, forces_restart, (good_all _ G). cbn [option_map]. unfold n, new_ens, bind_ens. cbn.
    do 2 f_equal. destruct bw as [|x bw]; [|reflexivity]. now destruct b.
  - unfold n, new_ens, bind_ens. cbn. f_equal. destruct hw; [|reflexivity]. now destruct nf.
Qed.
(** Everything else is as given. *)
Theorem ens_given e t p s b bw hw tm nf : let n := bind_ens one nf (new_ens one e t p s b bw hw tm) in
  eens n = e /\ temp n = t /\ pext n = p /\ stress n = s /\ bias n = b /\ time n = tm.
Proof. now repeat split. Qed.
(** Weights that are not given are one, for each component; those given are kept. *)
Theorem ens_weights e t p s b bw hw tm nf : let n := bind_ens one nf (new_ens one e t p s b bw hw tm) in
  (bw = [] -> List.length (bweights n) = List.length b /\ Forall (eq one) (bweights n)) /\ (bw <> [] -> bweights n = bw) /\
  (hw = [] -> List.length (hweights n) = nf /\ Forall (eq one) (hweights n)) /\ (hw <> [] -> hweights n = hw).
Proof.
  assert (K : forall k, List.length (repeat one k) = k /\ Forall (eq one) (repeat one k)).
  { intros k. split; [apply repeat_length|]. apply Forall_forall. intros x I. symmetry. now apply repeat_spec in I. }
  cbn. repeat split; intros; subst; try apply K.
  - now destruct bw.
  - now destruct hw.
Qed.
End Inputs.
Print Assumptions modes_bound.
Print Assumptions modes_refused.
Print Assumptions modes_restart.
Print Assumptions modes_rebound.
Print Assumptions modes_copied.
Print Assumptions forces_stored.
Print Assumptions forces_restart.
Print Assumptions ens_restart.
Print Assumptions ens_given.
Print Assumptions ens_weights.
(** Five atoms, of which the bosons are those with label 7. *)
Example boson_case : exists n c, bind_modes 5 (fun k => if Nat.even k then 7 else 8) 2 (fetch_modes 1 (ModesInput "rpmd" "fft" "bab" [] [] [7] true 10 1 false)) = Some n /\
  bose n = Indices [0; 2; 4] /\ store_modes n = Some c /\ i_bosons c = [0; 2; 4].
Proof. eexists. eexists. repeat split; reflexivity. Qed.
Example ens_case : let n := bind_ens 1 3 (new_ens 1 0 300 0 [] [Comp "ff" 4 1 "" [1] [] 0] [] [] 0) in good_bias (bias n) /\ bweights n = [1] /\ hweights n = [1; 1; 1].
Proof. repeat split; repeat constructor; cbn; lia. Qed.
