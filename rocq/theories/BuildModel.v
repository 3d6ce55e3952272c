(** * Model of how the motion classes are built from the input and saved to it

    ipi/inputs/motion/motion.py:246-435, the input sections ipi/inputs/motion/*.py and the constructors in
    ipi/engine/motion/*.py.  A call with keyword arguments is decided by the names alone; values are of any
    type.  The names are transcribed from the sources cited at each table.  Text conversion of the values is
    area Inp; nested sections (thermostat, optimizer, ...) count as one value. *)
From Coq Require Import String List Bool Arith.
Import ListNotations.
Open Scope string_scope.
Open Scope list_scope.

(** ** Calling with keywords *)
(** A signature: names of parameters, those without default, and whether there is a [**argv]. *)
Record sig : Type := Sig { params : list string; required : list string; rest : bool }.
Definition mem (k : string) (l : list string) : bool := existsb (String.eqb k) l.
Fixpoint nodup (l : list string) : bool := match l with [] => true | k :: t => negb (mem k t) && nodup t end.
(** Python refuses repeated names, unknown names unless there is [**argv], and absent required names. *)
Definition py_call (sg : sig) (kw : list string) : bool :=
  nodup kw && forallb (fun k => mem k (params sg) || rest sg) kw && forallb (fun k => mem k kw) (required sg).
(** A constructor calls that of the next class with some of its parameters, or with its [**argv]. *)
Inductive pass := Named (l : list string) | Argv.
Record level : Type := Lv { l_sig : sig; l_pass : pass }.
Fixpoint construct (ls : list level) (kw : list string) : bool :=
  match ls with
  | [] => true
  | l :: t => py_call (l_sig l) kw &&
              construct t (match l_pass l with Named n => n | Argv => filter (fun k => negb (mem k (params (l_sig l)))) kw end)
  end.
(** Motion.__init__, engine/motion/motion.py:32 *)
Definition motion_level := Lv (Sig ["fixcom"; "fixatoms_dof"] [] false) (Named []).
Definition both := Named ["fixcom"; "fixatoms_dof"].

(** ** The names *)
(** minimize: fields and fetch of InputGeop (ipi/inputs/motion/geop.py:56), parameters of GeopMotion.__init__ (ipi/engine/motion/geop.py:51) *)
Definition keys_minimize := ["ls_options"; "exit_on_convergence"; "tolerances"; "biggest_step"; "scale_lbfgs";
    "corrections_lbfgs"; "old_pos"; "old_pot"; "old_force"; "old_direction"; "invhessian_bfgs"; "hessian_trm";
    "tr_trm"; "qlist_lbfgs"; "glist_lbfgs"; "mode"].
Definition sig_minimize := Sig ["fixcom"; "fixatoms_dof"; "mode"; "exit_on_convergence"; "biggest_step";
    "old_pos"; "old_pot"; "old_force"; "old_direction"; "invhessian_bfgs"; "hessian_trm"; "tr_trm";
    "ls_options"; "tolerances"; "corrections_lbfgs"; "scale_lbfgs"; "qlist_lbfgs"; "glist_lbfgs"] [] false.
(** neb: fields and fetch of InputNEB (ipi/inputs/motion/neb.py:65), parameters of NEBMover.__init__ (ipi/engine/motion/neb.py:327) *)
Definition keys_neb := ["tolerances"; "old_coord"; "full_force"; "full_pots"; "old_nebpotential";
    "old_nebgradient"; "old_direction"; "biggest_step"; "scale_lbfgs"; "hessian_bfgs"; "qlist_lbfgs";
    "glist_lbfgs"; "corrections_lbfgs"; "dtmax_fire"; "v_fire"; "alpha_fire"; "N_down_fire"; "N_up_fire";
    "dt_fire"; "endpoints"; "spring"; "tangent"; "stage"; "use_climb"; "climb_bead"; "mode"].
Definition sig_neb := Sig ["fixcom"; "fixatoms_dof"; "mode"; "biggest_step"; "old_coord"; "full_force";
    "full_pots"; "old_nebpotential"; "old_nebgradient"; "old_direction"; "hessian_bfgs"; "tolerances";
    "corrections_lbfgs"; "qlist_lbfgs"; "glist_lbfgs"; "dtmax_fire"; "v_fire"; "alpha_fire"; "N_down_fire";
    "N_up_fire"; "dt_fire"; "endpoints"; "spring"; "tangent"; "scale_lbfgs"; "stage"; "use_climb";
    "climb_bead"] [] false.
(** string: fields and fetch of InputStringMEP (ipi/inputs/motion/stringmep.py:63), parameters of StringMover.__init__ (ipi/engine/motion/stringmep.py:271) *)
Definition keys_string := ["tolerances"; "old_coord"; "full_force"; "full_pots"; "old_stringpotential";
    "old_stringgradient"; "old_direction"; "biggest_step"; "scale_lbfgs"; "hessian_bfgs"; "qlist_lbfgs";
    "glist_lbfgs"; "corrections_lbfgs"; "tr_trm"; "dtmax_fire"; "v_fire"; "alpha_fire"; "N_down_fire";
    "N_up_fire"; "dt_fire"; "endpoints"; "stage"; "use_climb"; "climb_bead"; "mode"].
Definition sig_string := Sig ["fixcom"; "fixatoms_dof"; "mode"; "biggest_step"; "old_coord"; "full_force";
    "full_pots"; "old_stringpotential"; "old_stringgradient"; "old_direction"; "hessian_bfgs"; "tolerances";
    "corrections_lbfgs"; "qlist_lbfgs"; "glist_lbfgs"; "tr_trm"; "dtmax_fire"; "v_fire"; "alpha_fire";
    "N_down_fire"; "N_up_fire"; "dt_fire"; "endpoints"; "scale_lbfgs"; "stage"; "use_climb";
    "climb_bead"] [] false.
(** driven_dynamics: fields and fetch of InputDrivenDynamics (ipi/inputs/motion/driven_dynamics.py:195), parameters of DrivenDynamics.__init__ (ipi/engine/motion/driven_dynamics.py:48) *)
Definition keys_driven_dynamics := ["thermostat"; "barostat"; "timestep"; "nmts"; "efield"; "bec";
    "asr_threshold"; "mode"; "splitting"].
Definition sig_driven_dynamics := Sig ["efield"; "bec"; "asr_threshold"] [] true.
(** dynamics: fields and fetch of InputDynamics (ipi/inputs/motion/dynamics.py:79), parameters of Dynamics.__init__ (ipi/engine/motion/dynamics.py:47) *)
Definition keys_dynamics := ["thermostat"; "barostat"; "timestep"; "nmts"; "mode"; "splitting"].
Definition sig_dynamics := Sig ["timestep"; "mode"; "splitting"; "thermostat"; "barostat"; "fixcom";
    "fixatoms_dof"; "nmts"; "efield"; "bec"] ["timestep"] false.
(** constrained_dynamics: fields and fetch of InputConstrainedDynamics (ipi/inputs/motion/constrained_dynamics.py:238), parameters of ConstrainedDynamics.__init__ (ipi/engine/motion/constrained_dynamics.py:57) *)
Definition keys_constrained_dynamics := ["thermostat"; "barostat"; "timestep"; "nmts"; "nsteps_o";
    "nsteps_geo"; "csolver"; "mode"; "splitting"; "constraint_list"].
Definition sig_constrained_dynamics := Sig ["timestep"; "mode"; "splitting"; "thermostat"; "barostat";
    "fixcom"; "fixatoms"; "nmts"; "nsteps_geo"; "nsteps_o"; "constraint_list"; "csolver"] ["timestep"] false.
(** vibrations: fields and fetch of InputDynMatrix (ipi/inputs/motion/phonons.py:53), parameters of DynMatrixMover.__init__ (ipi/engine/motion/phonons.py:33) *)
Definition keys_vibrations := ["pos_shift"; "energy_shift"; "output_shift"; "prefix"; "asr"; "dynmat";
    "refdynmat"; "mode"].
Definition sig_vibrations := Sig ["fixcom"; "fixatoms_dof"; "mode"; "energy_shift"; "pos_shift";
    "output_shift"; "dynmat"; "refdynmat"; "prefix"; "asr"] [] false.
(** normalmodes: fields and fetch of InputNormalMode (ipi/inputs/motion/vscf.py:55), parameters of NormalModeMover.__init__ (ipi/engine/motion/vscf.py:52) *)
Definition keys_normalmodes := ["prefix"; "asr"; "dynmat"; "nprim"; "fnmrms"; "nevib"; "nint"; "pair_range";
    "nbasis"; "athresh"; "ethresh"; "alpha"; "nkbt"; "nexc"; "mptwo"; "solve"; "grid"; "print_mftpot";
    "print_1b_map"; "print_2b_map"; "print_vib_density"; "threebody"; "nparallel"; "mode"].
Definition sig_normalmodes := Sig ["fixcom"; "fixatoms_dof"; "mode"; "dynmat"; "prefix"; "asr"; "nprim";
    "fnmrms"; "nevib"; "nint"; "nbasis"; "athresh"; "ethresh"; "nkbt"; "nexc"; "solve"; "grid"; "mptwo";
    "print_mftpot"; "print_1b_map"; "print_2b_map"; "threebody"; "print_vib_density"; "nparallel"; "alpha";
    "pair_range"] [] false.
(** scp: fields and fetch of InputSCPhonons (ipi/inputs/motion/scphonons.py:55), parameters of SCPhononsMover.__init__ (ipi/engine/motion/scphonons.py:44) *)
Definition keys_scp := ["prefix"; "asr"; "random_type"; "displace_mode"; "dynmat"; "max_steps"; "max_iter";
    "tau"; "wthreshold"; "precheck"; "checkweights"; "chop"; "nparallel"; "batch_weight_exponent"; "mode"].
Definition sig_scp := Sig ["fixcom"; "fixatoms_dof"; "mode"; "dynmat"; "prefix"; "asr"; "max_steps";
    "max_iter"; "tau"; "chop"; "random_type"; "displace_mode"; "wthreshold"; "precheck"; "checkweights";
    "nparallel"; "batch_weight_exponent"] [] false.
(** alchemy: fields and fetch of InputAlchemy (ipi/inputs/motion/alchemy.py:36), parameters of AlchemyMC.__init__ (ipi/engine/motion/alchemy.py:31) *)
Definition keys_alchemy := ["names"; "nxc"; "ealc"; "mode"].
Definition sig_alchemy := Sig ["fixcom"; "fixatoms_dof"; "mode"; "names"; "nxc"; "ealc"] [] false.
(** atomswap: fields and fetch of InputAtomSwap (ipi/inputs/motion/atomswap.py:41), parameters of AtomSwap.__init__ (ipi/engine/motion/atomswap.py:27) *)
Definition keys_atomswap := ["names"; "nxc"; "ealc"; "mode"].
Definition sig_atomswap := Sig ["fixcom"; "fixatoms_dof"; "mode"; "names"; "nxc"; "ealc"] [] false.
(** instanton: fields and fetch of InputInst (ipi/inputs/motion/instanton.py:49), parameters of InstantonMotion.__init__ (ipi/engine/motion/instanton.py:81) *)
Definition keys_instanton := ["tolerances"; "biggest_step"; "old_pos"; "old_pot"; "old_force"; "opt"; "max_e";
    "max_ms"; "discretization"; "friction"; "frictionSD"; "fric_spec_dens"; "fric_spec_dens_ener"; "eta";
    "alt_out"; "prefix"; "delta"; "hessian_init"; "hessian"; "hessian_update"; "hessian_asr"; "fric_hessian";
    "qlist_lbfgs"; "glist_lbfgs"; "old_direction"; "scale_lbfgs"; "corrections_lbfgs"; "ls_options";
    "energy_shift"; "hessian_final"; "mode"].
Definition sig_instanton := Sig ["fixcom"; "fixatoms_dof"; "mode"; "tolerances"; "biggest_step"; "old_pos";
    "old_pot"; "old_force"; "opt"; "max_e"; "max_ms"; "discretization"; "alt_out"; "prefix"; "delta";
    "hessian_init"; "hessian"; "fric_hessian"; "hessian_update"; "hessian_asr"; "qlist_lbfgs"; "glist_lbfgs";
    "scale_lbfgs"; "corrections_lbfgs"; "ls_options"; "old_direction"; "hessian_final"; "energy_shift";
    "friction"; "frictionSD"; "eta"; "fric_spec_dens"; "fric_spec_dens_ener"] [] false.
(** planetary: fields and fetch of InputPlanetary (ipi/inputs/motion/planetary.py:53), parameters of Planetary.__init__ (ipi/engine/motion/planetary.py:45) *)
Definition keys_planetary := ["thermostat"; "timestep"; "nmts"; "nsamples"; "stride"; "nbeads"; "screen";
    "mode"].
Definition sig_planetary := Sig ["timestep"; "mode"; "nsamples"; "stride"; "screen"; "nbeads"; "thermostat";
    "barostat"; "fixcom"; "fixatoms_dof"; "nmts"] ["timestep"] false.
(** t_ramp: fields and fetch of InputTemperatureRamp (ipi/inputs/motion/ramp.py:38), parameters of TemperatureRamp.__init__ (ipi/engine/motion/ramp.py:23) *)
Definition keys_t_ramp := ["t_start"; "t_end"; "logscale"; "total_steps"; "current_step"].
Definition sig_t_ramp := Sig ["fixcom"; "fixatoms_dof"; "t_start"; "t_end"; "total_steps"; "current_step";
    "logscale"] [] false.
(** p_ramp: fields and fetch of InputPressureRamp (ipi/inputs/motion/ramp.py:102), parameters of PressureRamp.__init__ (ipi/engine/motion/ramp.py:74) *)
Definition keys_p_ramp := ["p_start"; "p_end"; "logscale"; "total_steps"; "current_step"].
Definition sig_p_ramp := Sig ["fixcom"; "fixatoms_dof"; "p_start"; "p_end"; "total_steps"; "current_step";
    "logscale"] [] false.
(** al-kmc: fields and fetch of InputAlKMC (ipi/inputs/motion/al6xxx_kmc.py:58), parameters of AlKMC.__init__ (ipi/engine/motion/al6xxx_kmc.py:47) *)
Definition keys_al_kmc := ["optimizer"; "nstep"; "a0"; "diffusion_barrier_al"; "diffusion_prefactor_al";
    "diffusion_barrier_mg"; "diffusion_prefactor_mg"; "diffusion_barrier_si"; "diffusion_prefactor_si";
    "neval"; "ncell"; "nvac"; "nsi"; "nmg"; "idx"; "tottime"; "ecache_file"; "qcache_file"; "max_cache_len";
    "mode"].
Definition sig_al_kmc := Sig ["mode"; "optimizer"; "nstep"; "a0"; "ncell"; "nvac"; "nsi"; "nmg"; "neval";
    "diffusion_barrier_al"; "diffusion_prefactor_al"; "diffusion_barrier_mg"; "diffusion_prefactor_mg";
    "diffusion_barrier_si"; "diffusion_prefactor_si"; "idx"; "tottime"; "ecache_file"; "qcache_file";
    "thermostat"; "barostat"; "fixcom"; "fixatoms_dof"; "nmts"; "max_cache_len"] ["mode"; "optimizer"; "nstep";
    "a0"; "ncell"; "nvac"; "nsi"; "nmg"; "neval"; "diffusion_barrier_al"; "diffusion_prefactor_al";
    "diffusion_barrier_mg"; "diffusion_prefactor_mg"; "diffusion_barrier_si"; "diffusion_prefactor_si"] false.

(** A mode of <motion>: the keywords of the call (motion.py:357-437), and the constructors it runs through. *)
Record entry : Type := Entry { e_mode : string; e_keys : list string; e_levels : list level }.
Definition given (l : list string) : list string := "fixcom" :: "fixatoms_dof" :: l.
Definition std (m : string) (ks : list string) (sg : sig) : entry := Entry m (given ks) [Lv sg both; motion_level].
(** replay: motion.py:357-362 and engine/motion/replay.py:38-51 *)
Definition entries : list entry :=
  [ std "replay" ["intraj"] (Sig ["fixcom"; "fixatoms_dof"; "intraj"] [] false);
    std "minimize" keys_minimize sig_minimize;
    std "neb" keys_neb sig_neb;
    std "string" keys_string sig_string;
    (* driven_dynamics.py:63 hands everything else to Dynamics *)
    Entry "driven_dynamics" (given keys_driven_dynamics) [Lv sig_driven_dynamics Argv; Lv sig_dynamics both; motion_level];
    std "dynamics" keys_dynamics sig_dynamics;
    std "vibrations" keys_vibrations sig_vibrations;
    std "normalmodes" keys_normalmodes sig_normalmodes;
    std "scp" keys_scp sig_scp;
    std "alchemy" keys_alchemy sig_alchemy;
    std "atomswap" keys_atomswap sig_atomswap;
    std "instanton" keys_instanton sig_instanton;
    (* planetary.py:82-89: no constructor of Motion, but one of Dynamics *)
    Entry "planetary" (given keys_planetary) [Lv sig_planetary (Named ["timestep"; "mode"; "thermostat"; "nmts"; "fixcom"; "fixatoms_dof"]); Lv sig_dynamics both; motion_level];
    (* motion.py:428-431 and ramp.py:46, 97 *)
    Entry "t_ramp" keys_t_ramp [Lv sig_t_ramp (Named []); motion_level];
    Entry "p_ramp" keys_p_ramp [Lv sig_p_ramp (Named []); motion_level];
    (* al6xxx_kmc.py:174-178: the optimisers are built from the section of minimize *)
    Entry "al-kmc" (given keys_al_kmc) [Lv sig_al_kmc (Named (given keys_minimize)); Lv sig_minimize both; motion_level] ].
(** constrained_dynamics.py:80 calls the constructor of Motion with fixatoms *)
Definition constrained : entry :=
  Entry "constrained_dynamics" (given keys_constrained_dynamics) [Lv sig_constrained_dynamics (Named ["fixcom"; "fixatoms"]); motion_level].
Definition builds (e : entry) : bool := construct (e_levels e) (e_keys e).

(** ** Saving and building again *)
(** The constructor sets an attribute to an argument or to a constant. *)
Inductive src := Arg (k : string) | Const (c : string).
Fixpoint assoc {A} (k : string) (l : list (string * A)) : option A :=
  match l with [] => None | (x, v) :: t => if String.eqb x k then Some v else assoc k t end.
(** A class: attributes set by the constructor, and the fields that store takes from which attribute. *)
Record saver : Type := Saver { s_name : string; s_cons : list (string * src); s_store : list (string * string) }.
(** After a restart the argument [k] is what was stored, or else the default (utils/inputvalue.py:143-206). *)
Definition section {V} (s : saver) (dflt : string -> V) (st : string -> V) (k : string) : V :=
  match assoc k (s_store s) with Some a => st a | None => dflt k end.
Definition rebuilt {V} (s : saver) (dflt const : string -> V) (st : string -> V) (a : string) : option V :=
  match assoc a (s_cons s) with
  | None => None
  | Some (Const c) => Some (const c)
  | Some (Arg k) => Some (section s dflt st k)
  end.
(** motion.py:327-331 and motion.py:43-47 *)
Definition std_cons := [("fixcom", Arg "fixcom"); ("fixatoms_dof", Arg "fixatoms_dof")].
Definition std_store := [("fixcom", "fixcom"); ("fixatoms_dof", "fixatoms_dof")].
(** The ramps are not given fixcom nor fixatoms_dof (motion.py:428-431). *)
Definition ramp_cons := [("fixcom", Const "False"); ("fixatoms_dof", Const "empty")].
(** neb: NEBMover.__init__ (ipi/engine/motion/neb.py:327) and InputNEB.store (ipi/inputs/motion/neb.py:293-320) *)
Definition cons_neb := std_cons ++ [("tolerances", Arg "tolerances"); ("mode", Arg "mode");
    ("big_step", Arg "biggest_step"); ("old_x", Arg "old_coord"); ("nebpot", Arg "old_nebpotential");
    ("nebgrad", Arg "old_nebgradient"); ("d", Arg "old_direction"); ("full_f", Arg "full_force");
    ("full_v", Arg "full_pots"); ("corrections", Arg "corrections_lbfgs"); ("qlist", Arg "qlist_lbfgs");
    ("glist", Arg "glist_lbfgs"); ("scale", Arg "scale_lbfgs"); ("endpoints", Arg "endpoints");
    ("spring", Arg "spring"); ("tangent", Arg "tangent"); ("use_climb", Arg "use_climb");
    ("cl_indx", Arg "climb_bead"); ("stage", Arg "stage"); ("hessian", Arg "hessian_bfgs");
    ("v", Arg "v_fire"); ("a", Arg "alpha_fire"); ("N_dn", Arg "N_down_fire"); ("N_up", Arg "N_up_fire");
    ("dt_fire", Arg "dt_fire"); ("dtmax", Arg "dtmax_fire")].
Definition store_neb : list (string * string) := std_store ++ [("tolerances", "tolerances"); ("mode", "mode");
    ("old_coord", "old_x"); ("full_force", "full_f"); ("full_pots", "full_v"); ("old_nebpotential", "nebpot");
    ("old_nebgradient", "nebgrad"); ("old_direction", "d"); ("biggest_step", "big_step");
    ("hessian_bfgs", "hessian"); ("qlist_lbfgs", "qlist"); ("glist_lbfgs", "glist"); ("v_fire", "v");
    ("alpha_fire", "a"); ("N_down_fire", "N_dn"); ("N_up_fire", "N_up"); ("dt_fire", "dt_fire");
    ("dtmax_fire", "dtmax"); ("endpoints", "endpoints"); ("spring", "spring"); ("tangent", "tangent");
    ("stage", "stage"); ("use_climb", "use_climb"); ("climb_bead", "cl_indx"); ("scale_lbfgs", "scale")].
(** string: StringMover.__init__ (ipi/engine/motion/stringmep.py:271) and InputStringMEP.store (ipi/inputs/motion/stringmep.py:285-311) *)
Definition cons_string := std_cons ++ [("tolerances", Arg "tolerances"); ("mode", Arg "mode");
    ("big_step", Arg "biggest_step"); ("old_x", Arg "old_coord"); ("stringpot", Arg "old_stringpotential");
    ("stringgrad", Arg "old_stringgradient"); ("d", Arg "old_direction"); ("full_f", Arg "full_force");
    ("full_v", Arg "full_pots"); ("corrections", Arg "corrections_lbfgs"); ("qlist", Arg "qlist_lbfgs");
    ("glist", Arg "glist_lbfgs"); ("scale", Arg "scale_lbfgs"); ("tr_trm", Arg "tr_trm");
    ("endpoints", Arg "endpoints"); ("use_climb", Arg "use_climb"); ("cl_indx", Arg "climb_bead");
    ("stage", Arg "stage"); ("hessian", Arg "hessian_bfgs"); ("v", Arg "v_fire"); ("a", Arg "alpha_fire");
    ("N_dn", Arg "N_down_fire"); ("N_up", Arg "N_up_fire"); ("dt_fire", Arg "dt_fire");
    ("dtmax", Arg "dtmax_fire")].
Definition store_string : list (string * string) := std_store ++ [("tolerances", "tolerances");
    ("mode", "mode"); ("old_coord", "old_x"); ("full_force", "full_f"); ("full_pots", "full_v");
    ("old_stringpotential", "stringpot"); ("old_stringgradient", "stringgrad"); ("old_direction", "d");
    ("biggest_step", "big_step"); ("hessian_bfgs", "hessian"); ("qlist_lbfgs", "qlist");
    ("glist_lbfgs", "glist"); ("tr_trm", "tr_trm"); ("v_fire", "v"); ("alpha_fire", "a");
    ("N_down_fire", "N_dn"); ("N_up_fire", "N_up"); ("dt_fire", "dt_fire"); ("dtmax_fire", "dtmax");
    ("endpoints", "endpoints"); ("stage", "stage"); ("use_climb", "use_climb"); ("climb_bead", "cl_indx");
    ("scale_lbfgs", "scale")].
(** vibrations: DynMatrixMover.__init__ (ipi/engine/motion/phonons.py:33) and InputDynMatrix.store (ipi/inputs/motion/phonons.py:114-124) *)
Definition cons_vibrations := std_cons ++ [("mode", Arg "mode"); ("deltaw", Arg "output_shift");
    ("deltax", Arg "pos_shift"); ("deltae", Arg "energy_shift"); ("dynmatrix", Arg "dynmat");
    ("refdynmatrix", Arg "refdynmat"); ("prefix", Arg "prefix"); ("asr", Arg "asr");
    ("fixatoms_dof", Arg "fixatoms_dof")].
Definition store_vibrations : list (string * string) := std_store ++ [("mode", "mode");
    ("pos_shift", "deltax"); ("energy_shift", "deltae"); ("output_shift", "deltaw"); ("prefix", "prefix");
    ("asr", "asr"); ("dynmat", "dynmatrix"); ("refdynmat", "refdynmatrix")].
(** normalmodes: NormalModeMover.__init__ (ipi/engine/motion/vscf.py:52) and InputNormalMode.store (ipi/inputs/motion/vscf.py:245-271) *)
Definition cons_normalmodes := std_cons ++ [("mode", Arg "mode"); ("dynmatrix", Arg "dynmat");
    ("prefix", Arg "prefix"); ("asr", Arg "asr"); ("nprim", Arg "nprim"); ("alpha", Arg "alpha");
    ("fnmrms", Arg "fnmrms"); ("nevib", Arg "nevib"); ("nint", Arg "nint"); ("nbasis", Arg "nbasis");
    ("athresh", Arg "athresh"); ("ethresh", Arg "ethresh"); ("nkbt", Arg "nkbt"); ("nexc", Arg "nexc");
    ("solve", Arg "solve"); ("grid", Arg "grid"); ("mptwo", Arg "mptwo"); ("print_mftpot", Arg "print_mftpot");
    ("print_1b_map", Arg "print_1b_map"); ("print_2b_map", Arg "print_2b_map"); ("threebody", Arg "threebody");
    ("print_vib_density", Arg "print_vib_density"); ("nparallel", Arg "nparallel");
    ("pair_range", Arg "pair_range")].
Definition store_normalmodes : list (string * string) := std_store ++ [("mode", "mode"); ("prefix", "prefix");
    ("asr", "asr"); ("pair_range", "pair_range"); ("dynmat", "dynmatrix"); ("nprim", "nprim");
    ("fnmrms", "fnmrms"); ("nevib", "nevib"); ("nint", "nint"); ("alpha", "alpha"); ("nbasis", "nbasis");
    ("athresh", "athresh"); ("ethresh", "ethresh"); ("nkbt", "nkbt"); ("nexc", "nexc"); ("solve", "solve");
    ("grid", "grid"); ("mptwo", "mptwo"); ("print_mftpot", "print_mftpot"); ("print_1b_map", "print_1b_map");
    ("print_2b_map", "print_2b_map"); ("print_vib_density", "print_vib_density"); ("threebody", "threebody");
    ("nparallel", "nparallel")].
(** scp: SCPhononsMover.__init__ (ipi/engine/motion/scphonons.py:44) and InputSCPhonons.store (ipi/inputs/motion/scphonons.py:170-184) *)
Definition cons_scp := std_cons ++ [("dynmatrix", Arg "dynmat"); ("mode", Arg "mode"); ("asr", Arg "asr");
    ("tau", Arg "tau"); ("max_steps", Arg "max_steps"); ("max_iter", Arg "max_iter"); ("prefix", Arg "prefix");
    ("chop", Arg "chop"); ("random_type", Arg "random_type"); ("displace_mode", Arg "displace_mode");
    ("wthreshold", Arg "wthreshold"); ("precheck", Arg "precheck"); ("checkweights", Arg "checkweights");
    ("nparallel", Arg "nparallel"); ("batch_weight_exponent", Arg "batch_weight_exponent")].
Definition store_scp : list (string * string) := std_store ++ [("mode", "mode"); ("prefix", "prefix");
    ("asr", "asr"); ("dynmat", "dynmatrix"); ("max_steps", "max_steps"); ("max_iter", "max_iter");
    ("tau", "tau"); ("chop", "chop"); ("random_type", "random_type"); ("displace_mode", "displace_mode");
    ("nparallel", "nparallel"); ("batch_weight_exponent", "batch_weight_exponent")].
(** alchemy: AlchemyMC.__init__ (ipi/engine/motion/alchemy.py:31) and InputAlchemy.store (ipi/inputs/motion/alchemy.py:72-84) *)
Definition cons_alchemy := std_cons ++ [("names", Arg "names"); ("nxc", Arg "nxc"); ("ealc", Arg "ealc")].
Definition store_alchemy : list (string * string) := std_store ++ [("names", "names"); ("nxc", "nxc");
    ("ealc", "ealc")].
(** atomswap: AtomSwap.__init__ (ipi/engine/motion/atomswap.py:27) and InputAtomSwap.store (ipi/inputs/motion/atomswap.py:75-87) *)
Definition cons_atomswap := std_cons ++ [("names", Arg "names"); ("nxc", Arg "nxc"); ("ealc", Arg "ealc")].
Definition store_atomswap : list (string * string) := std_store ++ [("names", "names"); ("nxc", "nxc");
    ("ealc", "ealc")].
(** t_ramp: TemperatureRamp.__init__ (ipi/engine/motion/ramp.py:23) and InputTemperatureRamp.store (ipi/inputs/motion/ramp.py:81-88) *)
Definition cons_t_ramp := ramp_cons ++ [("t_start", Arg "t_start"); ("t_end", Arg "t_end");
    ("total_steps", Arg "total_steps"); ("current_step", Arg "current_step"); ("logscale", Arg "logscale")].
Definition store_t_ramp : list (string * string) := std_store ++ [("t_start", "t_start"); ("t_end", "t_end");
    ("logscale", "logscale"); ("total_steps", "total_steps"); ("current_step", "current_step")].
(** p_ramp: PressureRamp.__init__ (ipi/engine/motion/ramp.py:74) and InputPressureRamp.store (ipi/inputs/motion/ramp.py:146-153) *)
Definition cons_p_ramp := ramp_cons ++ [("p_start", Arg "p_start"); ("p_end", Arg "p_end");
    ("total_steps", Arg "total_steps"); ("current_step", Arg "current_step"); ("logscale", Arg "logscale")].
Definition store_p_ramp : list (string * string) := [] ++ [("p_start", "p_start"); ("p_end", "p_end");
    ("logscale", "logscale"); ("total_steps", "total_steps"); ("current_step", "current_step")].

(** dynamics: Dynamics.__init__ (engine/motion/dynamics.py:47-95), InputDynamics.store (inputs/motion/dynamics.py:118-133) *)
Definition cons_dynamics := std_cons ++ [("enstype", Arg "mode"); ("dt", Arg "timestep"); ("thermostat", Arg "thermostat");
    ("barostat", Arg "barostat"); ("nmts", Arg "nmts"); ("splitting", Arg "splitting")].
Definition store_dynamics := std_store ++ [("mode", "enstype"); ("timestep", "dt"); ("thermostat", "thermostat");
    ("barostat", "barostat"); ("nmts", "nmts"); ("splitting", "splitting")].
(** driven_dynamics: driven_dynamics.py:48-78, inputs/motion/driven_dynamics.py:256-262 *)
Definition cons_driven_dynamics := cons_dynamics ++ [("Electric_Field", Arg "efield"); ("Born_Charges", Arg "bec"); ("asr_threshold", Arg "asr_threshold")].
Definition store_driven_dynamics := store_dynamics ++ [("efield", "Electric_Field"); ("bec", "Born_Charges"); ("asr_threshold", "asr_threshold")].
(** planetary: planetary.py:68-89, inputs/motion/planetary.py:120-136; fixcom and fixatoms_dof of the object are constants (78-79) *)
Definition cons_planetary := [("fixcom", Const "True"); ("fixatoms_dof", Const "empty"); ("ccdyn.fixcom", Arg "fixcom"); ("ccdyn.fixatoms_dof", Arg "fixatoms_dof");
    ("mode", Arg "mode"); ("nsamples", Arg "nsamples"); ("stride", Arg "stride"); ("nbeads", Arg "nbeads"); ("screen", Arg "screen");
    ("ccdyn.dt", Arg "timestep"); ("ccdyn.thermostat", Arg "thermostat"); ("ccdyn.nmts", Arg "nmts")].
Definition store_planetary := std_store ++ [("mode", "mode"); ("timestep", "ccdyn.dt"); ("thermostat", "ccdyn.thermostat"); ("nmts", "ccdyn.nmts");
    ("nsamples", "nsamples"); ("stride", "stride"); ("screen", "screen")].
(** al-kmc: al6xxx_kmc.py:90-207 and inputs/motion/al6xxx_kmc.py:208-264; the barriers of Mg and Si, when not positive, are those of Al (not modelled) *)
Definition cons_al_kmc := [("fixcom", Const "True"); ("fixatoms_dof", Const "empty"); ("optimizer.fixcom", Arg "fixcom"); ("optimizer.fixatoms_dof", Arg "fixatoms_dof");
    ("optimizer", Arg "optimizer"); ("nstep", Arg "nstep"); ("neval", Arg "neval"); ("a0", Arg "a0"); ("ncell", Arg "ncell"); ("nvac", Arg "nvac"); ("nsi", Arg "nsi"); ("nmg", Arg "nmg");
    ("diffusion_barrier_al", Arg "diffusion_barrier_al"); ("diffusion_prefactor_al", Arg "diffusion_prefactor_al");
    ("diffusion_barrier_mg", Arg "diffusion_barrier_mg"); ("diffusion_prefactor_mg", Arg "diffusion_prefactor_mg");
    ("diffusion_barrier_si", Arg "diffusion_barrier_si"); ("diffusion_prefactor_si", Arg "diffusion_prefactor_si");
    ("idx", Arg "idx"); ("tottime", Arg "tottime"); ("ecache_file", Arg "ecache_file"); ("qcache_file", Arg "qcache_file"); ("max_cache_len", Arg "max_cache_len")].
Definition store_al_kmc := std_store ++ [("a0", "a0"); ("nvac", "nvac"); ("nmg", "nmg"); ("nsi", "nsi"); ("ncell", "ncell"); ("nstep", "nstep");
    ("diffusion_barrier_al", "diffusion_barrier_al"); ("diffusion_prefactor_al", "diffusion_prefactor_al");
    ("diffusion_barrier_mg", "diffusion_barrier_mg"); ("diffusion_prefactor_mg", "diffusion_prefactor_mg");
    ("diffusion_barrier_si", "diffusion_barrier_si"); ("diffusion_prefactor_si", "diffusion_prefactor_si");
    ("idx", "idx"); ("tottime", "tottime"); ("ecache_file", "ecache_file"); ("qcache_file", "qcache_file"); ("max_cache_len", "max_cache_len")].

(** minimize: geop.py:83-120 and inputs/motion/geop.py:203-235; the rest depends on the mode of the optimiser *)
Definition geop_cons (m : string) := std_cons ++ [("mode", Arg "mode"); ("conv_exit", Arg "exit_on_convergence"); ("big_step", Arg "biggest_step"); ("tolerances", Arg "tolerances");
    ("ls_options", Arg "ls_options"); ("old_x", Arg "old_pos"); ("old_u", Arg "old_pot"); ("old_f", Arg "old_force"); ("d", Arg "old_direction")] ++
  (if String.eqb m "bfgs" then [("invhessian", Arg "invhessian_bfgs")]
   else if String.eqb m "bfgstrm" then [("tr", Arg "tr_trm"); ("hessian", Arg "hessian_trm")]
   else if String.eqb m "lbfgs" then [("corrections", Arg "corrections_lbfgs"); ("scale", Arg "scale_lbfgs"); ("qlist", Arg "qlist_lbfgs"); ("glist", Arg "glist_lbfgs")]
   else if String.eqb m "damped_bfgs" then [("invhessian", Arg "invhessian_bfgs")] else []).
Definition geop_store (m : string) := std_store ++ [("mode", "mode"); ("tolerances", "tolerances"); ("exit_on_convergence", "conv_exit")] ++
  (if String.eqb m "bfgs" then [("old_direction", "d"); ("invhessian_bfgs", "invhessian"); ("biggest_step", "big_step")]
   else if String.eqb m "bfgstrm" then [("hessian_trm", "hessian"); ("tr_trm", "tr"); ("biggest_step", "big_step")]
   else if String.eqb m "lbfgs" then [("old_direction", "d"); ("qlist_lbfgs", "qlist"); ("glist_lbfgs", "glist"); ("corrections_lbfgs", "corrections"); ("scale_lbfgs", "scale"); ("biggest_step", "big_step")]
   else if String.eqb m "sd" then [("ls_options", "ls_options")]
   else if String.eqb m "cg" then [("old_direction", "d"); ("ls_options", "ls_options"); ("old_force", "old_f")]
   else if String.eqb m "damped_bfgs" then [("old_direction", "d"); ("invhessian_bfgs", "invhessian"); ("biggest_step", "big_step")] else []).
Definition geop_modes := ["sd"; "cg"; "bfgs"; "bfgstrm"; "lbfgs"; "damped_bfgs"].
(** What the step of the optimiser reads before it has set it: BFGS geop.py:432-490, trust radius 530-580, L-BFGS 635-700,
    damped 745-795, steepest descent 845-880, conjugate gradient 935-980 *)
Definition geop_reads (m : string) : list string :=
  ["conv_exit"; "tolerances"; "fixcom"; "fixatoms_dof"] ++
  (if String.eqb m "bfgs" then ["d"; "invhessian"; "big_step"; "ls_options"]
   else if String.eqb m "bfgstrm" then ["tr"; "hessian"; "big_step"]
   else if String.eqb m "lbfgs" then ["d"; "corrections"; "scale"; "qlist"; "glist"; "big_step"; "ls_options"]
   else if String.eqb m "damped_bfgs" then ["invhessian"; "big_step"]
   else if String.eqb m "sd" then ["ls_options"]
   else if String.eqb m "cg" then ["d"; "old_f"; "ls_options"] else []).
Definition geop (m : string) : saver := Saver ("minimize " ++ m) (geop_cons m) (geop_store m).

(** instanton: instanton.py:118-200 and inputs/motion/instanton.py:333-388; [opt] is the algorithm, [fr] and [sd] the friction, [fin] hessian_final *)
Definition inst_cons (opt : string) (fr sd : bool) := std_cons ++ [("mode", Arg "mode"); ("tolerances", Arg "tolerances"); ("save", Arg "alt_out"); ("prefix", Arg "prefix");
    ("hessian_final", Arg "hessian_final"); ("max_e", Arg "max_e"); ("max_ms", Arg "max_ms"); ("discretization", Arg "discretization"); ("friction", Arg "friction");
    ("frictionSD", if fr then Arg "frictionSD" else Const "False"); ("fric_spec_dens", Arg "fric_spec_dens"); ("fric_spec_dens_ener", Arg "fric_spec_dens_ener");
    ("big_step", Arg "biggest_step"); ("energy_shift", Arg "energy_shift"); ("delta", Arg "delta"); ("old_x", Arg "old_pos"); ("old_u", Arg "old_pot"); ("old_f", Arg "old_force");
    ("opt", Arg "opt")] ++
  (if String.eqb opt "lbfgs" then
     [("hessian", Arg "hessian"); ("hessian_asr", Arg "hessian_asr"); ("corrections", Arg "corrections_lbfgs"); ("scale", Arg "scale_lbfgs"); ("ls_options", Arg "ls_options");
      ("qlist", Arg "qlist_lbfgs"); ("glist", Arg "glist_lbfgs"); ("d", Arg "old_direction")]
   else (if fr then [("eta0", Arg "eta")] else []) ++
        [("hessian_update", Arg "hessian_update"); ("hessian_asr", Arg "hessian_asr"); ("hessian_init", Arg "hessian_init"); ("hessian", Arg "hessian")] ++
        (if (fr && sd)%bool then [("fric_hessian", Arg "fric_hessian")] else [])).
Definition inst_store (opt : string) (fr sd fin : bool) := std_store ++ [("mode", "mode"); ("tolerances", "tolerances"); ("biggest_step", "big_step"); ("opt", "opt"); ("max_e", "max_e"); ("max_ms", "max_ms");
    ("discretization", "discretization"); ("friction", "friction"); ("frictionSD", "frictionSD")] ++
  (if fr then [("fric_spec_dens", "fric_spec_dens"); ("fric_spec_dens_ener", "fric_spec_dens_ener")] else []) ++
  [("alt_out", "save"); ("prefix", "prefix"); ("delta", "delta"); ("hessian_final", "hessian_final"); ("old_pot", "old_u"); ("old_force", "old_f"); ("energy_shift", "energy_shift")] ++
  (if String.eqb opt "lbfgs" then
     [("qlist_lbfgs", "qlist"); ("glist_lbfgs", "glist"); ("old_direction", "d"); ("scale_lbfgs", "scale"); ("corrections_lbfgs", "corrections"); ("ls_options", "ls_options")] ++
     (if fin then [("hessian", "hessian")] else [])
   else [("hessian", "hessian"); ("hessian_update", "hessian_update"); ("hessian_asr", "hessian_asr")] ++
        (if fr then if sd then [("fric_hessian", "fric_hessian")] else [("eta", "eta0")] else [])).
Definition inst (opt : string) (fr sd fin : bool) : saver := Saver ("instanton " ++ opt) (inst_cons opt fr sd) (inst_store opt fr sd fin).

Definition savers : list saver :=
  [ Saver "neb" cons_neb store_neb; Saver "string" cons_string store_string; Saver "vibrations" cons_vibrations store_vibrations;
    Saver "normalmodes" cons_normalmodes store_normalmodes; Saver "scp" cons_scp store_scp; Saver "alchemy" cons_alchemy store_alchemy;
    Saver "atomswap" cons_atomswap store_atomswap; Saver "t_ramp" cons_t_ramp store_t_ramp; Saver "p_ramp" cons_p_ramp store_p_ramp;
    Saver "dynamics" cons_dynamics store_dynamics; Saver "driven_dynamics" cons_driven_dynamics store_driven_dynamics;
    Saver "planetary" cons_planetary store_planetary; Saver "al-kmc" cons_al_kmc store_al_kmc ].

(** ** Options of a field, utils/inputvalue.py:1013-1030: a value that is not one of them raises ValueError *)
Definition admitted (options : list string) (v : string) : bool := mem v options.
(** inputs/motion/neb.py:261-266 and inputs/motion/stringmep.py:248-253; the stages the movers go through, neb.py:581-972 *)
Definition neb_options := ["endpoints"; "neb"; "climb"].
Definition neb_stages := ["endpoints"; "neb"; "climb"; "converged"].
