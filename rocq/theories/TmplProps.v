(** * Helpers that write inputs for scripts: theorems of record *)
From Coq Require Import List Arith ZArith Lia Bool String Reals Lra.
From Verif Require Import TmplModel.
Import ListNotations.
Open Scope string_scope.
Open Scope list_scope.

(** ** Force fields *)
(** A direct force field needs a known potential, and has that and the parameters given. *)
Theorem direct_block drivers wd name ps pes address port : forall b, forcefield_xml drivers wd name "direct" ps pes address port = Val b <->
  exists p, pes = Some p /\ drivers p = true /\ tag b = "ffdirect" /\ attribs b = [("name", name)] /\
    fields b = ("pes", Text p) :: match ps with Nothing => [] | Dict d => [("parameters", Text (wd d))] | Str s => [("parameters", Text s)] end.
Proof.
  intros b. unfold forcefield_xml. cbn [String.eqb Ascii.eqb Bool.eqb]. destruct pes as [p|]; [|split; [discriminate|intros (p & E & _); discriminate]].
  destruct (drivers p) eqn:D; cbn [negb].
  - split; [intros E; injection E as <-; exists p; now repeat split|]. intros (q & E & _ & T & A & F). injection E as <-. destruct b as [t a f]. cbn in T, A, F. now subst.
  - split; [discriminate|]. intros (q & E & D' & _). injection E as <-. congruence.
Qed.
(** An internet socket needs an address and a port, and is read as given. *)
Theorem inet_block drivers wd name ps pes address port : forall b, forcefield_xml drivers wd name "inet" ps pes address port = Val b ->
  exists a z, address = Some a /\ port = Some z /\ tag b = "ffsocket" /\ attrib b "name" "" = name /\ socket_mode b = "inet" /\ socket_address b = Text a /\ socket_port b = Int z.
Proof.
  intros b. unfold forcefield_xml. cbn [String.eqb Ascii.eqb Bool.eqb orb andb]. destruct address as [a|]; [|discriminate]. destruct port as [z|]; [|discriminate].
  intros E. injection E as <-. exists a, z. now repeat split.
Qed.
Theorem socket_refused drivers wd name mode ps pes address port : mode <> "direct" ->
  (forcefield_xml drivers wd name mode ps pes address port = Raise ValueError <-> (mode <> "unix" /\ mode <> "inet") \/ address = None \/ (mode = "inet" /\ port = None)).
Proof.
  intros D. unfold forcefield_xml. destruct (String.eqb_spec mode "direct"); [contradiction|]. destruct (String.eqb_spec mode "unix") as [U|U]; [subst; cbn|].
  - destruct address as [a|]; [|tauto]. split; [discriminate|]. intros [[X _]|[X|[X _]]]; [contradiction|discriminate|discriminate].
  - destruct (String.eqb_spec mode "inet") as [I|I]; cbn [orb andb]; [|tauto]. destruct address as [a|]; [|tauto]. destruct port as [z|]; [|tauto].
    split; [discriminate|]. intros [[_ X]|[X|[_ X]]]; [contradiction|discriminate|discriminate].
Qed.
(** A unix socket has the address given, but is read as an internet socket at the default port, whatever is given. *)
Theorem unix_block drivers wd name ps pes address port : forall b, forcefield_xml drivers wd name "unix" ps pes address port = Val b ->
  exists a, address = Some a /\ tag b = "ffsocket" /\ attrib b "name" "" = name /\ socket_address b = Text a /\ socket_mode b = "inet" /\ socket_port b = Int 65535.
Proof. intros b. unfold forcefield_xml. cbn [String.eqb Ascii.eqb Bool.eqb orb andb]. destruct address as [a|]; [|discriminate]. intros E. injection E as <-. exists a. now repeat split. Qed.
Theorem unix_mode_refuted : exists drivers wd name ps pes address port b, forcefield_xml drivers wd name "unix" ps pes address port = Val b /\ socket_mode b <> "unix".
Proof. exists (fun _ => true), (fun s => s), "ff", Nothing, None, (Some "driver"), None. eexists. split; [reflexivity|]. discriminate. Qed.

(** ** Dynamics *)
Theorem motion_block dt pi : exists d t, motion_nvt_xml dt None pi = Val (d, t) /\ attrib d "mode" "" = "nvt" /\ field d "timestep" (Num 0) = Num dt /\
  attrib t "mode" "" = (if pi then "pile_g" else "svr") /\ field t "tau" (Num 0) = Num (10 * dt) /\ (pi = true -> field t "pile_lambda" (Num 1) = Num (1 / 2)).
Proof. destruct pi; do 2 eexists; (split; [reflexivity|]); repeat split. discriminate. Qed.
(** A thermostat that is given cannot be used. *)
Theorem motion_thermostat dt pi t : forall y, motion_nvt_xml dt (Some t) pi <> Val y.
Proof. discriminate. Qed.
Theorem motion_thermostat_refuted : exists dt pi t, motion_nvt_xml dt (Some t) pi = Raise UnboundLocalError.
Proof. now exists 1%R, false, "<thermostat mode='langevin'/>". Qed.

(** ** Simulations *)
Section Simulation.
Variables (ul um : R) (element : string -> R) (outs : block).
Notation sim := (simulation_xml ul um element outs).
(** One bead for each structure; names, cell and masses are those of the first. *)
Theorem simulation_beads s f t o p y : sim s f t o p = Some (Val y) ->
  s_nbeads y = List.length (frames s) /\ List.length (s_q y) = s_nbeads y /\ (forall k, (k < s_nbeads y)%nat -> nth k (s_q y) [] = map (fun x => x * ul)%R (positions (nth k (frames s) (Atoms [] [] [] (fun _ _ => 0%R))))) /\
  exists a r, frames s = a :: r /\ s_names y = symbols a /\ s_natoms y = List.length (symbols a) /\ forall i j, s_h y i j = (h a j i * ul)%R.
Proof.
  unfold simulation_xml. destruct (frames s) as [|a r] eqn:F; [discriminate|]. destruct (find _ (attribs f)) as [[n ff]|]; [|discriminate].
  cbv zeta. intros E. assert (K : s_nbeads y = List.length (a :: r) /\ s_q y = map (fun f => map (fun x => x * ul)%R (positions f)) (a :: r) /\ s_names y = symbols a /\ s_natoms y = List.length (symbols a) /\ forall i j, s_h y i j = (h a j i * ul)%R).
  { destruct p as [p|]; [destruct (String.eqb _ _); [|discriminate]|]; injection E as <-; cbn; now repeat split. }
  destruct K as (-> & -> & -> & -> & H). rewrite map_length. repeat split.
  - intros k L. rewrite nth_indep with (d' := map (fun x => x * ul)%R (positions (Atoms [] [] [] (fun _ _ => 0%R)))) by (now rewrite map_length). exact (map_nth (fun f => map (fun x => x * ul)%R (positions f)) (a :: r) _ k).
  - exists a, r. now repeat split.
Qed.
(** The temperature is that of the ensemble and of the initial velocities; without one there is neither. *)
Theorem simulation_temperature s f t o p y : sim s f t o p = Some (Val y) -> s_temp y = t /\ s_init y = option_map (fun x => (s_nbeads y, x)) t.
Proof.
  unfold simulation_xml. destruct (frames s) as [|a r] eqn:F; [discriminate|]. destruct (find _ (attribs f)) as [[n ff]|]; [|discriminate]. cbv zeta.
  intros E. destruct p as [p|]; [destruct (String.eqb _ _); [|discriminate]|]; injection E as <-; cbn; destruct t; now split.
Qed.
(** The forces are those of the force field given; the outputs those given or the default, with the prefix. *)
Theorem simulation_outputs s f t o p y : sim s f t o p = Some (Val y) -> In ("name", s_field y) (attribs f) /\
  let out := match o with Some b => b | None => outs end in tag (s_output y) = tag out /\ fields (s_output y) = fields out /\
  match p with
  | None => s_output y = out
  | Some q => tag out = "output" /\ attrib (s_output y) "prefix" "" = q /\ forall k d, k <> "prefix" -> attrib (s_output y) k d = attrib out k d
  end.
Proof.
  unfold simulation_xml. destruct (frames s) as [|a r] eqn:F; [discriminate|]. destruct (find _ (attribs f)) as [[n ff]|] eqn:N; [|discriminate]. cbv zeta.
  assert (I : In ("name", ff) (attribs f)). { apply find_some in N. destruct N as [I E]. cbn in E. apply String.eqb_eq in E. now subst. }
  set (out := match o with Some b => b | None => outs end).
  intros E.
  destruct p as [q|]; [destruct (String.eqb_spec (tag out) "output") as [T|]; [|discriminate]|]; injection E as <-; cbn [s_field s_output].
  - split; [exact I|]. split; [reflexivity|]. split; [reflexivity|]. split; [exact T|]. split; [reflexivity|]. intros k d D. unfold attrib, set_prefix. cbn [attribs find fst].
    destruct (String.eqb_spec "prefix" k) as [<-|_]; [contradiction|].
    replace (find (fun x => String.eqb (fst x) k) (filter (fun x => negb (String.eqb (fst x) "prefix")) (attribs out))) with (find (fun x => String.eqb (fst x) k) (attribs out)); [reflexivity|].
    induction (attribs out) as [|[x v] l IH]; [reflexivity|]. cbn [filter find fst]. destruct (String.eqb_spec x "prefix") as [->|X]; cbn [negb].
    + destruct (String.eqb_spec "prefix" k) as [<-|_]; [contradiction|]. exact IH.
    + cbn [find fst]. destruct (String.eqb x k); [reflexivity|exact IH].
  - repeat split. exact I.
Qed.
(** Masses: those of an array called mass, otherwise those of the elements. *)
Theorem simulation_masses s f t o p y a r : sim s f t o p = Some (Val y) -> frames s = a :: r ->
  (forall m l1 l2, arrays a = l1 ++ ("mass", m) :: l2 -> ~ In "mass" (map fst l1) -> s_m y = map (fun x => x * um)%R m) /\
  (~ In "mass" (map fst (arrays a)) -> s_m y = map element (symbols a)).
Proof.
  unfold simulation_xml. intros E F. rewrite F in E. destruct (find _ (attribs f)) as [[n ff]|]; [|discriminate]. cbv zeta in E.
  assert (K : s_m y = match find (fun p => String.eqb (fst p) "mass") (arrays a) with Some p => map (fun x => x * um)%R (snd p) | None => map element (symbols a) end).
  { destruct p as [p|]; [destruct (String.eqb _ _); [|discriminate]|]; now injection E as <-. }
  rewrite K. clear K E F. split.
  - intros m l1 l2 -> N. induction l1 as [|[x v] l IH]; [reflexivity|]. cbn [app find fst]. destruct (String.eqb_spec x "mass") as [->|X]; [exfalso; apply N; now left|].
    apply IH. intros I. apply N. now right.
  - intros N. destruct (find _ (arrays a)) as [[x v]|] eqn:E; [|reflexivity]. apply find_some in E. destruct E as [I E]. apply String.eqb_eq in E. cbn in E. subst.
    exfalso. apply N. apply in_map_iff. exists ("mass", v). now split.
Qed.
End Simulation.
(** Masses set in the usual way, in an array called masses, are ignored. *)
Theorem set_masses_refuted : exists ul um element outs s f t o p y a, simulation_xml ul um element outs s f t o p = Some (Val y) /\ s = One a /\
  In ("masses", [2%R]) (arrays a) /\ symbols a = ["H"] /\ s_m y <> map (fun x => x * um)%R [2%R].
Proof.
  exists 1%R, 1%R, (fun _ => 1%R), (Block "output" [] []). set (a := Atoms ["H"] [0; 0; 0]%R [("masses", [2%R])] (fun _ _ => 0%R)).
  exists (One a), (Block "ffdirect" [("name", "ff")] []), None, None, None. eexists. exists a. split; [reflexivity|]. repeat split; [now left|]. cbn. intros E. injection E as E. lra.
Qed.
Print Assumptions direct_block.
Print Assumptions inet_block.
Print Assumptions socket_refused.
Print Assumptions unix_block.
Print Assumptions unix_mode_refuted.
Print Assumptions motion_block.
Print Assumptions motion_thermostat.
Print Assumptions motion_thermostat_refuted.
Print Assumptions simulation_beads.
Print Assumptions simulation_temperature.
Print Assumptions simulation_outputs.
Print Assumptions simulation_masses.
Print Assumptions set_masses_refuted.
(** Two beads of one atom, with a prefix. *)
Example simulation_case : exists y, simulation_xml 2 1 (fun _ => 1%R) (Block "output" [("prefix", "simulation")] []) (Many [Atoms ["H"] [1; 0; 0]%R [] (fun _ _ => 0%R); Atoms ["H"] [0; 1; 0]%R [] (fun _ _ => 0%R)])
  (Block "ffdirect" [("name", "ff")] []) (Some 300%R) None (Some "run") = Some (Val y) /\ s_nbeads y = 2%nat /\ s_field y = "ff" /\ attrib (s_output y) "prefix" "" = "run".
Proof. eexists. split; [reflexivity|]. now repeat split. Qed.
Example direct_case : exists b, forcefield_xml (String.eqb "harmonic") (fun s => s) "ff" "direct" (Str "k:1") (Some "harmonic") None None = Val b /\ field b "parameters" (Text "") = Text "k:1".
Proof. eexists. split; reflexivity. Qed.
Example inet_case : exists b, forcefield_xml (fun _ => false) (fun s => s) "ff" "inet" Nothing None (Some "localhost") (Some 31415%Z) = Val b /\ socket_port b = Int 31415.
Proof. eexists. split; reflexivity. Qed.
