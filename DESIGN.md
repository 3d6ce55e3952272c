# Design: formal model of i-PI in Rocq

All Rocq sources are in `rocq/theories`. Shallow embedding: every Python function
modelled is a Gallina function whose comment cites file and lines in /repo. Python exceptions are
values of a result type. Floating point numbers are idealised as real numbers (stdlib `R`)
unless said otherwise. Nothing in /repo is executed.

Conventions: `FooModel.v` (model), `FooSpec.v` (vocabulary of the statements, independent of the
proofs), `FooProofs.v`, `FooThms.v`, ... (lemmas), `FooProps.v` (the theorems of record, examples
that meet their hypotheses, `Print Assumptions`). A theorem whose name ends in `_refuted` shows
with a concrete witness that the intended property is false of the code as written. `_partial`
marks theorems that prove part of the property. `MANIFEST.json` maps properties to theorems.

## Trusted base

- Coq 8.16.1's kernel (including its virtual machine, used by `vm_compute` in examples and
  refutations), and the reading of /repo into the models, definition by definition.
- Axioms: every `*Props.v` file ends with `Print Assumptions` for each theorem of record. The
  files about discrete state are closed under the global context. The files
  about real numbers depend on the axioms of the standard library's reals only, as printed there:
  see the table "Assumptions" below.
- No axiom, parameter, functor or module type is declared in this development.

### Assumptions (as printed by `Print Assumptions`)

| Files | Axioms |
|---|---|
| DependProps, SockProps, WireProps, DirectProps, RaceProps, BeadProps, ActiveProps, ForceNet, SoftProps, SimProps, FileProps, ValProps, XyzProps, PdbProps, PrngProps, MpiProps | none (closed under the global context) |
| RdfProps, PolyProps, A2bProps, AscpProps, AseProps, TmplProps, NmiProps, IniProps, OutsProps, SmoProps, BathProps, FfinProps, MsgProps, StrTight, PostTight, NebiProps, StrProps, PostProps, ScpTight2, ScpTight, VscfTight, PpiProps, AcfProps, GleProps, RewProps, ToolProps, TrajProps, ScriptProps, SortRemd, FrameProps, PlumedProps, VscfProps, VscfSolve, VscfMap, ScpProps, ScpAvg, ScpMat, NebProps, NebConv, PlanProps, DrivProps, InstHess, InstProps, InstPath, CommProps, RotProps, PairProps, NMProps, SpringProps, SpringBab, FSumProps, ExtraProps, SCProps, MTSSched, MTSProps, ThermoProps, CellProps, CholProps, CellSeries, RemdProps, ExchProps, ExchNM, UnitProps, AutoProps, RampProps, MultiProps, ReplayProps, SwapProps, InitProps, PesProps, MinLin, MinSearch, MinProps, BrentProps, ConstrLin, ConstrProps, ConstrJac, ConstrCons, ConstrCases, ConstrSched, PhonAsr, PhonProps, PhonOut, PhonCases, HessProps, BaroIso, BaroRate, BaroCons, BaroCell, BaroProps, BaroMask, BaroLevel, KmcLattice, KmcIndex, KmcProps, KmcLink, EstKin, EstTemp, CavProps, EstThermo, EstScaled, EstIso, EstProps (and Classical_Prop.classic for cl_adjust_direction, the round trips of cell parameters gaussian_inv, ExchProps and ExchNM, rgb_works and the cell_ theorems of the barostats, near_neighbours, connectivity_fcc, residence_exponential, positions_moved, kmc_runs, bzp_level_innermost, the energies and forces of CavProps, the theorems with derivatives of EstThermo, EstScaled, EstIso and EstProps) | `ClassicalDedekindReals.sig_forall_dec`, `ClassicalDedekindReals.sig_not_dec`, `FunctionalExtensionality.functional_extensionality_dep` (stdlib reals), no others |
| KmcThreads, KmcCache | none (closed under the global context) |
| XmlProps, InpText, InpProofs, InpProps, XmlWrite | none (closed under the global context) |
| CavProps (cavity_one_thread_partial, cavity_one_thread_ends, cavity_two_threads_refuted, extras_*) | none |
| InstFix, InstFixProps | sig_forall_dec (through the reals) or none |
| SparseProps | none |
| BuildProps, BeadsNet | none (Closed under the global context) |
| SortProps | none |
| DmdProps | none |

## What is modelled

| Area | Files in /repo | Modelled | Not modelled |
|---|---|---|---|
| Depend* | utils/depend.py; declarations in engine/normalmodes.py, ensembles.py, motion/dynamics.py | depend_base get/set/taint/update_auto/update_man, depend_array views, synchronizer, dpipe | weak references dying, threads sharing one object, numpy arithmetic operators on arrays |
| Sock* | interfaces/sockets.py (Driver dispatch methods, InterfaceSocket), engine/forcefields.py queue/release | all branches of poll, pool_update, pool_distribute (both modes), dispatch_send/recv (+batch), requeue | wall-clock time (answers of the environment), contents of messages (Wire*), shared-memory driver, open/close of the listening socket |
| Wire* | interfaces/sockets.py (recvall, _recv_forces_bulk, _recv_forces_bulk_batch, _recv_force_data, _recv_forceready, _getstatus, the byte strings of dispatch_send, dispatch_send_batch, initialize), drivers/py/driver.py run_driver | bytes, fragmentation, timeouts, scratch buffer, UTF-8, int32; the driver's message loop | shared-memory transport, parse_extra, operating-system socket errors other than timeout and close |
| Direct* | engine/forcefields.py:490-616 (FFDirect), queue, release | poll with batches and idle countdown, evaluate, thread pool of one worker per batch | contents of results |
| Race* | engine/forcefields.py FFEval 389-429, FFDirect 579-589, FFCommittee 1427-1443, 1655-1665, FFRotations 1743-1786, 1860-1872; forces.py:143-209 | all interleavings of the statements of the evaluating thread and of a reader; queue/poll/release of composite requests | contents of results other than the potential |
| Bead* | engine/forces.py ForceBead 60-240, Forces.queue and the combine functions, MTSForces 605-705 (which components are queued and read) | early requests, caching, order of queueing and reading | more than one thread, failing reads |
| Active* | engine/forcefields.py:166-199; interfaces/sockets.py 535-560, 605-658, 807-852 | numpy integer indexing (negative, out of range, repeated), caching of the index array | dopbc, offsets |
| RSum | - | finite sums of reals and their derivatives (library) | - |
| Comm* | engine/forcefields.py:1394-1406, 1449-1654; pes/metatomic.py:519-520 | FFCommittee.gather: direct members and JSON committee, shape checks, mean, spread, alpha, baseline | active learning output, JSON text parsing |
| Rot* | engine/forcefields.py:1743-1857 | FFRotations: rotated structures and cells, inversion, weighted average | choice of the quadrature grid, random rotation (Rotation matrices: see Math*) |
| Pair* | engine/forcefields.py:666-691, 749-792, 848-872; utils/distance.py:12-43 | energies, forces, virial of LJ, dmd, Debye; minimum image with ties to even | coinciding atoms (division by zero) |
| TrigSum, Ortho | - | sums of cosines, orthonormal matrices (library) | - |
| NM*, RPCProofs | utils/nmtransform.py | mk_nm_matrix, mk_o_nm_matrix, nm_eva, o_nm_eva, mk_rs_matrix, mk_o_rs_matrix, nm_trans, nm_fft (real FFT as its defining sum), nm_rescale | single precision, FFTW planning, threads |
| Spring* | engine/normalmodes.py:441-931, engine/beads.py:255-303, motion/dynamics.py:441-444 | get_omegak, get_nmm, get_dynm3, get_prop_pq (exact, Cayley), free_qstep, free_babstep, kinetic energy, spring energy and force, vpath, fpath | bosonic springs (see Exchange), kstress |
| FSum* | engine/forces.py MTSForces 605-705, get_nmtslevels, f_combine, pot_combine, vir_combine, *_component | sums over components and levels, contraction, refusal of unequal levels | floating point summation order |
| ForceNet | engine/forces.py Forces.bind 750-1000 | the dependency network of the combined quantities, on the Depend model | number of beads and components fixed to one of each kind |
| Extra* | engine/forces.py extra_gather 435-475, extra_combine 1503-1556 | dictionaries, in-place growth of the shared "raw" list, promoted keys | text of numbers in extras (numpy parsing) |
| Suzuki-Chin | SCModel, SCProps | forces.py 1260-1445, 1475-1485, 1575-1634: forces_4th_order, coefficients, energy and both force parts | fourth-order virials, energies of components with weight zero |
| Multiple time steps | MTSModel, MTSSched, MTSProofs, MTSProps | dynamics.py get_qdt 256, get_pdt 259, get_tdt 266, pconstraints 364-397, pstep 423-439, qcstep 441-444, mtsprop_ba/ab 449-514, NVE/NVT/SC step 516-558, 718-757 | schedule as the list of calls; thermostat effect in area Thermo; barostat integrators (NPT, NST, SCNPT) and NVTCC left out |
| ThermoModel | thermostats.py 37-1346 (Thermostat, Langevin, PILE_L, PILE_G, SVR, GLE, NMGLE, NMGLEG, CL, FFL, Multi); dynamics.py 122-130; mathtools.py root_herm | reals; random numbers are arguments | dependency wiring (see NetBuild), matrix_exp, eigh and the restart arrays s; numpy's nan/inf is None in the flips |
| Cell* | engine/cell.py apply_pbc, array_pbc, minimum_distance; utils/mathtools.py 36-92, 152-456; utils/io/backends/io_xyz.py:110-148 (CELL headers) | periodic wrapping, cell conversions, logsumlog, quaternions and Euler angles, matrix_exp, exp_ut3x3, eigensystem_ut3x3, sinch, gaussian_inv | floating point rounding; np.linalg.inv is taken to be the inverse; the polynomial coefficients of gaussian_inv are parameters |
| Chol* | utils/mathtools.py:94-150 | stab_cholesky with its loops as updates, the warning flag | floating point rounding |
| Remd* | engine/smotion/remd.py (all of step, gle_scale), engine/ensembles.py 29-58, 185-216, 268-282, dynamics.py:423-439 (has_bias) | ensemble_swap, attempts with try blocks for barostats, loops over pairs, replica index, swap file line, Hamiltonian weights with their cache, has_bias | how energies are computed (functions of the system); timers; floating point rounding |
| `ExchModel` | ipi/utils/exchange.py | the whole ExchangePotential: cycle energies, prefix and suffix recursions, connection probabilities, forces, estimators | numpy vector operations written as the loops of the comments; arrays as functions of indices; floats as reals; caching by `depend` is modelled in Depend* | |
| `ExchNM` | ipi/engine/normalmodes.py:407-435, 731-796; exchange.py:30-70 | assembly of the spring energy and force from closed, open and bosonic parts; resolution of the list of bosons | negative indices are not representable (indices are naturals; the code refuses them) | |
| Soft* | utils/softexit.py | register, trigger, cleanup, kill handler, monitor as an interleaving of threads, loops and signals; clean-up functions may fail | the time limit, printing |
| Sim* | engine/simulation.py:227-465, engine/outputs.py (active, write, CheckpointOutput) | run loop with an exit possible between any two actions and in the middle of a step, initial outputs, strides, safe_stride, restart file | the state of the systems is abstract, storing and fetching it is the identity; output threads (mode) run in order |
| File* | utils/io/__init__.py:431-470; engine/outputs.py:93-140, 380-436, 640-785; engine/simulation.py:256-290 | open_backup on a directory, crash points of CheckpointOutput.write, names of all output streams | symbolic links, permissions, buffering and fsync; trajectory bead selection other than all or one |
| TextLib, UnitModel, UnitProps | ipi/utils/units.py UnitMap 203-304, UnitPrefix, UnitPrefixRE, unit_to_internal, unit_to_user 339-440 | family table, prefix table, the matching of prefix and base, errors, factors as rationals, conversion in reals | rows "ase"; characters beyond 8 bits |
| ValModel, ValProps | ipi/utils/io/inputs/io_xml.py read_bool, read_list, read_tuple, read_dict, write_list, write_tuple, write_bool, write_dict; inputs/__init__.py read_value; ipi/engine/properties.py getkey, getall 23-87 | texts character by character, slices, negative index of find | floats (which texts are floats is a parameter); underscores and plus signs in integers |
| XyzModel, XyzProps | io_xyz.py print_xyz 50-80, read_xyz 91-160; io/__init__.py iter_file_raw 352-376 | frames as lists of lines, number of atoms, labels, coordinates, comment, end of file inside and between frames | cell in the comment, masses from labels, text to float conversion (a parameter) |
| PdbModel, PdbProps | io_pdb.py print_pdb 82-132, read_pdb 135-200 | fixed columns of ATOM and CRYST1 lines, TITLE, END, formatting of numbers with fixed decimals | rounding of floats, masses, default units in the comment |
| AutoModel, AutoProps | io_units.py 17-135; io/__init__.py print_file 210-283; properties.py names and dimensions of traj_dict | search for the unit in the comment, conversion on writing and reading | formats pdb and ase, units requested explicitly on reading |
| PrngModel, PrngProps | prng.py 43-237, inputs/prng.py 70-98 | state of the streams, seeds, choice of threads, threaded and serial filling of arrays, checkpoints | numpy's generators, json text of the state |
| RampModel, RampProps | motion/ramp.py 48-64, 99-115, inputs/motion/ramp.py | the value set at each step, the counter, checkpoints | rounding of floats |
| MultiModel, MultiProps | motion/multi.py 16-62, motion/motion.py 36-67 | trees of motions: time step, fixed degrees of freedom, order of execution, propagation of the end | what simple motions do, bind |
| ReplayModel, ReplayProps | motion/replay.py 37-174 | reading of blocks from one file or one file per bead, order of the files, cell, end of file, restart, declared units | parsing of frames (in XyzModel, PdbModel), checkpoints, ase format, frames with another number of atoms |
| SwapModel, SwapProps | motion/alchemy.py 71-157, motion/atomswap.py 70-133 | exchange list, choice of pairs, acceptance, change of names, masses, momenta, positions, accumulated energy | transfer of forces, Poisson number of tries (any list of tries), rounding |
| MpiModel, MpiProofs, MpiProps | ipi/interfaces/mpi.py 79-130, 215-227, 246-324; drivers/py/driver.py 301-431; ipi/engine/forcefields.py 432-487 | forming of driver groups, the handshake and the assignment of groups to force fields; packing and unpacking of batches; the pool of drivers under any interleaving of queueing, polling, answering and releasing | the INIT and EXIT messages, broadcasts inside a group, locks and threads, MPI itself (messages of one tag between two ranks arrive in order), json of the extra string | |
| InitModel, InitProps | engine/initializer.py 175-294, 346-598 (init_stage1) and Beads.resize | every command of an initialize block as a step of the system (sizes, positions, momenta, masses, labels, cell, flags), values by hand, from files of frames and from checkpoints, index and bead attributes, final checks | init_stage2, thermostat state (gle), warnings, reading of the files themselves (Xyz*, Pdb*), labels cut to six characters, velocities with the unit of momenta from chk |
| PesModel, PesProps | ipi/pes: dummy, gas, harmonic, morse, doublewell, doublewell_with_friction, bath, doublewell_with_bath, doubledoublewell, spherical_LJ 126-199, spline 60-100, tools; first arguments of driverdipole | energies and forces as real functions, constructors and parameters, batched evaluation, splitting of batched results | the potentials that call other libraries (ase, mace, metatomic, pet, ...), virials (all zero), reading of instruction files, the interpolation in spline (any function) |
| MinModel, MinLin, MinSearch, MinProps | ipi/utils/mintools.py 408-1106, 1533-1626; ipi/engine/motion/geop.py 232-264, 419-501, 627 | approximate line search, BFGS, trust radius BFGS, L-BFGS, damped BFGS, FIRE, mode following, Powell update; vectors are functions on indices, energies and gradients given by an arbitrary function | rounding, NaN, output, eigen decomposition (given by its defining equations), restart data, the neb versions (1110-1531) |
| BrentModel, BrentProps | ipi/utils/mintools.py 70-402; ipi/engine/motion/geop.py 181-229, 820-883 | bracketing and Brent's method with derivatives, and the values steepest descent starts them with | rounding, output, the direction of conjugate gradients (885-980), the versions for neb |
| ConstrModel, ConstrLin, ConstrProps, ConstrJac, ConstrCons, ConstrCases, ConstrSched | ipi/utils/constrtools.py; ipi/engine/motion/constrained_dynamics.py 168-175, 195-544 | indices of constraints, bond, angle, Eckart and list constraints with Jacobians, Gram matrix, projection of momenta and positions, NVE and NVT steps with multiple time stepping, fixed degrees of freedom | depend caching (the values are functions), pconstraints between substeps, Cholesky decomposition (any solver of symmetric positive definite systems), the input classes, ConstrainedDynamics.__init__ |
| PhonModel, PhonAsr, PhonProps, PhonOut, PhonCases | ipi/engine/motion/phonons.py | DynMatrixMover with its steps: fd, nmfd and enmfd displacements, rows and transforms, the sum rules crystal, poly and lin, printall with its files, the end of the run; forces are a function of the positions; eig and eigh are functions, of which the theorems assume what they need (eigen_unit, orthonormal eigenvectors) | binding, the units and format of the files, the choice of displacement from the input, positions put back after a step (taken as unchanged) |
| HessModel, HessProps | ipi/utils/hesstools.py | get_dynmat; clean_hessian with the sum rules of PhonModel; get_hessian with its temporary files as a disk on which one operation at a time is done, and interruptions between and during them | the moments of inertia returned with mofi; a file cut within its last number; gm.eta as an array that the mapper may change in place (taken as a value) |
| BaroModel, BaroIso, BaroRate, BaroCons, BaroCell, BaroProps, BaroMask, BaroLevel | ipi/engine/barostats.py 34-60, 236-393, 429-1433; ipi/engine/motion/dynamics.py 613-676, 759-836; ipi/utils/mathtools.py 431-456 | centroid and deviations of the beads, cell, cell momentum; stresses, pstep, pscstep, qcstep, masks, conserved quantities; the schedules are those of MTSModel | the thermostats (any action on the momenta in C125, none in C122), dependency lists of pot, kin and stress, Barostat.bind, the conserved quantity of BaroSCBZP, input classes; the deviations move by the normal mode propagator of the area NM, here any reversible motion |
| KmcModel, KmcLattice, KmcIndex, KmcProps, KmcThreads, KmcCache, KmcLink | ipi/engine/motion/al6xxx_kmc.py 47-678; ipi/inputs/motion/al6xxx_kmc.py 204-268 | lattice and neighbour table, index arrays, strings of states, unique_idx and unique_idx_match, events, rates, selection, time, positions; main thread, evaluators, threads and cache as a machine with one shared access per step; the geometry optimisation is any function of the starting positions | printing and output files, ts_thread (not called), writing of cache files, history kept by an optimiser between optimisations (reset is taken to remove it), the energy of the initial state (computed in the main thread), the second consistency check is made for all events |
| XmlModel, XmlProps, InpModel, InpText, InpProofs, InpProps, XmlWrite | ipi/utils/io/inputs/io_xml.py 60-286; ipi/utils/inputvalue.py 136-390, 984-1319; ipi/inputs/prng.py 35-69; ipi/inputs/system.py 69-103 | the handler of SAX events, xml_parse_string, xml_write, xml_edit; Input, InputAttribute, InputValue, InputArray, InputRaw: defaults, write, parse, check, fetch with options and units; label substitution of templates. A class is a value with its tables of attributes, fields and dynamic fields | the SAX reader itself is assumed (elements, attributes in single or double quotes, five entities; no comments, CDATA, declarations). The default of a class with fields is the object state that its store gives and replaces the state. Classes that override parse or write (InputAtoms.write, InputInitializer.write, InputCheckpoint.parse, InputBEC) and the store and fetch of the single classes. _defwrite is the write of the initial object with the name in place of %%NAME%%. Floats are a type with a printer and a reader. np.loadtxt is a parameter. help functions |
| EstModel, EstLib, EstKin, EstTemp, EstDisp, EstThermo, EstScaled, EstIso, EstProps | ipi/engine/properties.py 1085-1237, 1239-1249, 1304-1521, 1585-1749, 1769-1881, 1912-2896, 3164-3327; forces.py 1573-1584 | selection of atoms by label and index; kinetic energies (centroid virial, thermodynamic, Suzuki-Chin), tensors, radii of gyration, temperature, scaled coordinates, displaced path, isotope estimators of second and fourth order, fourth-order weights, the copies of beads and cell between calls | warnings; floats; the cache of the properties; get_vcom and the plain momenta; the forces are functions of positions and cell (C28 on), the exchange energy of bosons is a parameter (modelled in Exch) |
| CavModel, CavProps | ipi/engine/forcefields.py 1875-2081, 2084-2487; sockets.py 551, 1721; simulation.py 433-447 | photon energies and forces by slices, forces on nuclei from charges or dipole derivatives, split of the coordinates, offset, checks of the reply, combination of extras, shared attributes of the forcefield under threads | more than one bath (the code sets 1); request ids and times; the wrapping of the cell is an arbitrary map; partial lists of active atoms; soft exit while waiting |
| InstFix, InstFixProps, InstModel, InstHess, InstProps, InstPath | instanton.py 299-414, 417-687, 690-871, 934-941, 1059-1130, 1403-1486, 1587-1775; instools.py 10-171, 297-500; hesstools.py 178-280 | fixed atoms (masks, reduction and extension of each array type), springs and their Hessian, complete and banded Hessian, weights, finite differences of a quadratic well, friction terms and Hessian, checks of the friction, steps, rescaling, reduced path, first geometry, exit test | spline interpolation, spectral density files, Powell and TRM updates (see Min), L-BFGS loop, autocoef and opt_coef, final output |
| DrivModel, DrivProps | ipi/engine/motion/driven_dynamics.py 95-460, dynamics.py 204-244, inputs/motion/driven_dynamics.py | the field and its envelope, the kicks of the field around the plain step of area MTS, the Born charges of the driver and of the input, the dipole, its derivative, the check of the temperature | the thermostat of eda-nvt (the middle step is any function), the regular expression of the text dipole (how many numbers it finds is a parameter), reading of the file of charges, stores |
| PlanModel, PlanProps, SparseProps | ipi/engine/motion/planetary.py 91-281, ipi/utils/sparse.py, ipi/utils/io/__init__.py 476-508 | the frequencies and starting configuration of the constrained-centroid dynamics, the accumulated matrix, screening, symmetrisation, compressed matrices, netstrings | the dynamics itself (samples are any list), rounding to half precision, the npz encoding (any string), GLE thermostats, timings |
| NebModel, NebProps, NebConv | ipi/engine/motion/neb.py | tangents, force of the band, climbing image, masks of fixed coordinates, stages, convergence, largest step, checks of the Hessian, forces left for output | the optimisers (any function; see Min), restart data other than the Hessian, several force components (transfer_forces_manual needs exactly one), virials (the transfer sets them to zero), variable springs and endpoint optimisation (not implemented in the code), printing |
| BuildModel, BuildProps | ipi/inputs/motion/motion.py:246-435, fields, fetch and store of ipi/inputs/motion/*.py, signatures of the constructors in ipi/engine/motion | names of the fields, which constructor argument each becomes, what the constructor passes on, which attribute each argument is stored in and read from | the values (any; types, units and dimensions are areas Inp, Val, Unit), bind, nested ensembles of sections (one level) |
| BeadsNet | ipi/engine/beads.py, ipi/engine/atoms.py, ipi/utils/depend.py:732-741 | declared and actual dependencies of every quantity, the names each function reads | the numerical functions (parameters here; spring potential and force in area Spring), slices (area DependView), the single Atom proxies |
| ScpModel, ScpProps, ScpAvg, ScpMat | ipi/engine/motion/scphonons.py | drawing of configurations, sequence of steps, weights, averages, frequencies, correlation matrices, displacements, inner loop of rnmik | eigh (any function that returns an eigendecomposition), the random numbers and gaussian_inv (area Cell), the outer loop of rnmik, contents of the files (only whether they are there), acoustic sum rules (area Phon), fixed atoms (the code does not look at them), printing |
| VscfModel, VscfProps, VscfSolve, VscfMap | ipi/engine/motion/vscf.py | frequencies, sequence of modes and pairs, sampling along a mode, convergence, Hamiltonian matrix, free and internal energy, maps, density and mean field | interpolation by scipy, eigh (any function that returns an eigendecomposition), the Hermite functions (any functions), acoustic sum rules (area Phon), the random choice of forces for printing, contents of the files, perturbation theory after the last solution, printing; a restart at a step above zero finds the lists of the code empty and v0 zero |
| PlumedModel, PlumedProps | ipi/engine/forcefields.py 877-1104 (FFPlumed), ipi/engine/smotion/metad.py | evaluate, mtd_update, plumed_extras, step and bind of metadynamics | PLUMED (any state, bias, increments and update), units, masses and charges, the reading of the reference structure, threads; a force field that is both physical and metadynamic (the scaled component has no _forces: AttributeError) |
| FrameModel, FrameProps | utils/io/backends/io_json.py, io_binary.py, utils/io/__init__.py 63-90, 310-376, utils/io/io_units.py 33-44 | print_json, read_json, iter_json, print_binary, read_binary, iter_file_raw on binary files, the choice of the reader and of default units by the extension | json (any functions that are inverse to each other), the encoding of floats (any), bytes that are no valid characters (numpy may raise ValueError there, and then no frame is read), negative counts |
| SortModel, SortProps, SortRemd | tools/py/remdsort.py 78-247, tools/py/trimsim.py 49-227, engine/outputs.py 380-436 | reading and passing on frames of every format, the loop over steps and outputs, the swap file, the cut, names of all files opened; joined to the model of ReplicaExchange.step | parsing of the input, int() of a line (any function), splitting of the lines of the swap file, the buffers of the files |
| ScriptModel, ScriptProps | scripting/interactive.py 45-206, scripting/parsing.py 24-239, engine/simulation.py 326-466, engine/outputs.py 231-300 | run of an interactive simulation with outputs, checkpoints, early ends and soft exits between iterations; properties, structures, thermalization; header and columns of property files, step and extras of trajectories | threads, exit while storing (see SimModel), custom properties, the regular expressions (header lines and matches are given), conversion of trajectories to ASE objects, loadtxt, set_motion_step |
| TrajModel, TrajProps | engine/outputs.py 380-421, 453-660, engine/properties.py 3008-3051 | choice of the beads, contents and titles of frames, named and raw extras, flushing, centroids of even and odd beads | formatting of numbers and of the frames (Xyz, Pdb, Frame), extras_component_raw, fsync |
| DmdModel, DmdProps | engine/smotion/dmd.py 48-63, engine/forcefields.py 757-795 | the counter of the driven force fields, the force kept between steps, restart from a checkpoint | the potential itself (PairModel), the integrator (any two functions) |
| RewModel, RewProps | tools/py/committee-reweight.py 7-179, paraweights.py 64-222 | direct and cumulant reweighting, uncertainty for several models, strides; log-weights, sums and factors of parallel tempering | reading and printing of tables, the check that tables have the same length, units of the potential, order of replicas |
| ToolModel, ToolProps | tools/py/contract-trajectory.py 31-137, mux-positions.py, posforce2kinetic.py 94-115, kinetic2tag.py 22-86, fixcom.py 24-79, effective_temperatures.py 31-123, getproperty.py | units, numbers and cell of a contracted frame, choice and order of frames, kinetic energy components, circular buffer and window, centre of mass, effective temperatures, search for a column | opening of files and formatting, checks that cells and numbers of atoms agree, the eigenvalues of the tensor, patterns with special characters in a name |
| AcfModel, AcfLin, AcfProps | ipi/utils/tools/acf_xyz.py, tools/py/getacf.py | arguments, choice of atoms, blocks, derivative, transforms, windows, padding, averages and errors, lines written | reading of frames (units are not converted by the code), the Fourier transforms of numpy are their formulas |
| GleModel, GleLin, GleProps | ipi/utils/tools/gle.py, tools/py/gleacf.py 69-79 | drift, diffusion, covariance by eigenvectors, kernel, iterative deconvolution and its error | eigenvectors and inverse are arguments with their defining equations, parsing of the input, the roots of the eigenvalues (principal values), printing |
| PpiModel, PpiProps | tools/py/energies_ppi.py, heat_capacity_ppi.py, total_energy_ppi.py (correction), tools/f90/fortran.f90 1-107 | estimators of a frame by both branches, running sums, all columns, corrections, heat capacity, header search, column indices, arguments and keys of read_file | reading of xyz frames, file names, formats of numbers, column numbers in the header, the functions for radial distributions |
| ScpTight, VscfTight | ipi/engine/motion/scphonons.py 105-118, 742-746; vscf.py 441-501 | conditions of bind, error of the force, samples | see Scp, Vscf |
| PostModel, PostLin, PostProps | ipi/utils/tools/instanton_postproc.py, instanton_interpolation.py 78-80 and 157-177 | full ring and Hessian from the half, springs, actions, partition functions, matrix element, checks, files of eigenvalues and frequencies, filtering, interpolation of path and Hessian | reading of the checkpoint, printed text, diagonalisation (its eigenvalues are given; see HessModel for the matrix), energy shift from the command line |
| StrModel, StrProps | ipi/engine/motion/stringmep.py 39-103, 169-242, 271-432, 434-478 (which image climbs), 587-599, 650-676, 940-1017 (modes and attributes), 1095-1270 | parameter along the path, natural spline, resampling, tangents, gradients of the string and of the climbing image, forces of the first step, Euler steps, convergence, stages, sizes of the Hessian and attributes at binding | the optimisers (MinModel), printed text, the transfer of forces after each step, GradientMapper (unused) |
| NebiModel, NebiProps | tools/py/neb_interpolate.py 47-116, 203-215, 385-407, 425-455 | resampling of a path with orders 1 and 3, active atoms, positions of fixed atoms, the switch of the output | reading the geometries, comparison of cells and masses, printed distances, units |
| MsgModel, MsgProps | ipi/utils/messages.py 24-103, 109-181, 217-268; ipi/inputs/simulation.py 229-242; ipi/engine/outputs.py 38-72 | levels of messages, lock, restart of the level; branch, commit and address from the repository files; text of the identification and the comment made of it | the banner, printing, stack traces, machine name and date (inputs of the model) |
| StrTight, PostTight | as StrModel, PostModel | theorems added after mutation testing | |
| FfinModel, FfinProps | ipi/inputs/forcefields.py (store, fetch, check of all classes); ipi/engine/forcefields.py (which arguments the constructors keep); ipi/inputs/simulation.py 250-308 | fields and attributes of each class, arguments given and dropped, values fixed by constructors, tags in checkpoints, members of committees, checks of sockets | other checks of parameters by constructors; default weights of committees; values are told apart only |
| BathModel, BathProps | ipi/inputs/thermostats.py 47-386; ipi/inputs/barostats.py 110-208 | store, fetch and check of thermostats with those inside; store and fetch of barostats | units and dimensions of fields (areas Unit, Inp); the thermostat of a barostat is stored and fetched as any other |
| SmoModel, SmoProps | ipi/inputs/smotion/*.py; ipi/engine/smotion/remd.py 62-92, metad.py 34-57, dmd.py 40-54 | store and fetch with those inside; binding of the replica indices; which biases are updated | use_energy of metadynamics (area Plumed); the files |
| OutsModel, OutsProps | ipi/inputs/outputs.py 293-393, 433-478; ipi/utils/inputvalue.py 324-348, 1150-1160 | parsing of checkpoint tags with the caught ValueError; store of lists of outputs | texts of attributes are given by what they are read as |
| IniModel, IniProps | ipi/inputs/initializer.py 109-123, 157-295, 299-354, 480-521 | entries of initialize blocks and their expansion; cells given by numbers | values other than those of cells are their texts; a manual cell without brackets (a float without size) and failing square roots are left out |
| NmiModel, NmiProps | ipi/inputs/normalmodes.py 109-126, 218-240; ipi/inputs/forces.py 98-194; ipi/inputs/ensembles.py 112-150; ipi/engine/normalmodes.py 80-172, 407-435; ipi/engine/forces.py 287-327; ipi/engine/ensembles.py 72-139, 200-204 | store, fetch, construction and binding of normal modes, force components and ensembles | numbers of any type; writing and reading of values is area Inp; everything else bind does |
| TmplModel, TmplProps | ipi/scripting/templates.py (all) | forcefield_xml, motion_nvt_xml, simulation_xml and how their socket blocks are read | blocks are tags with attributes and fields instead of text (text is areas Xml and Inp); structures of different lengths; write_dict, drivers, units and masses of elements are parameters |
| AseModel, AseProps | ipi/utils/io/backends/io_ase.py 78-132 | read_ase: refusal of mass columns, rotation of periodic structures into upper triangular form, masses | what ASE itself does (readers, Atoms.rotate, which is assumed to be a rotation taking a to x), the list of open files, print_ase |
| AscpModel, AscpProps | tools/py/get_Ascp.py 20-192 | free energies of self consistent phonons: harmonic energies, reweighted corrections and errors, lines, how the tool ends | nan_to_num, real exponents of batch weights, parsing of the input, formats |
| A2bModel, A2bProps | tools/py/a2b.py 30-106 | what a2b.py takes from the comment of a file, conversion of a frame from xyz to xyz | the formats themselves (other files), more than one frame |
| PolyModel, PolyProps | ipi/utils/io/backends/io_pdb.py 22-79; ipi/utils/io/__init__.py 116-182 (pdb); tools/py/mergebeadspdb.py 24-50 | records of ring polymers in pdb files, merging of the trajectories of beads | text of the records, files with different numbers of atoms |
| RdfModel, RdfProps | tools/py/rdf_ppi.py 95-248 | radial distribution functions with perturbed path integrals: bins, sums, normalisation, correction, when files are written | the histogram itself (tools/f90/fortran.f90), units of the distances, fewer than two bins |
| JsonModel, JsonProps, JsonTight | ipi/utils/io/inputs/io_json.py 54-185 | json_to_xmlnode, xmlnode_to_json, _process_json_node | the json module, str() of lists and dictionaries (a parameter), errors of children called _text or of texts beside children called value |
| PbcModel, PbcProps | tools/py/default_input_changes_2.0_to_3.0.py 23-44 | set_all_ffsocket_pbc_if_default | layout (prettify), comments, which ElementTree drops |

## Findings: where the code does not satisfy the property

- C04: `depend_value.set` stores the new value before `update_man` raises NameError (depend.py:262-267, 209-220).
- C05: a view of a computed array accepts element writes (depend.py:477-494).
- C06: `_nm_factor`/`_o_nm_factor` read frequencies they do not declare (normalmodes.py:284-296, 584-648); `_qdt_on_m`, `_inmts`, `_nmtslevels` (dynamics.py:311-323).
- C61: a declared dependency that is not read keeps its taint and later stops the propagation of changes (ensembles.py:254-266, normalmodes.py:370-381, 731-795).
- C62: `__setitem__` does not refresh a synchronised array before writing one element (depend.py:487-494).
- C63: `reshape`/`flatten` build an array whose constructor clears the shared taint flag (depend.py:438-458, 116-122).
- C10: legacy thread-pool mode, a timed-out request is dropped from the job list and stays "Running" for ever (sockets.py:1789-1812, 1531-1537).
- C14: batching ignores the matching policy (sockets.py:1698, by design).
- C15: legacy mode, `driver.status | Status.Up` is always true (sockets.py:1432), so a connection that drops during the handshake enters the pool, and the dispatch loop then spins for ever while a request is queued. Lock mode: the waiting list is refilled only when it is empty or shorter than the list of free clients, so an idle client can be starved of the request it is locked to. Consolidated mode: the collect loop waits for all jobs, so a silent client with no timeout blocks new dispatches.
- C64: `InvalidSize` raised while receiving is not caught in consolidated mode and ends the polling thread (sockets.py:670-759, forcefields.py:244-247). Also `tc.result()` with `tc` None in pool_update (sockets.py:1401) when a dead client is removed while a job exists.
- C12: `_getstatus_select` reads the reply with one `recv(12)` and drops the client when fewer bytes arrive (sockets.py:276, 290); `_recv_forceready` of the legacy mode never recognises a split header, and compares the empty reply with `""` instead of `b""`, so it spins for ever on a closed connection (sockets.py:430-457).
- C65: the reference driver announces `len(extras)` in characters and sends UTF-8 bytes (driver.py:238-240, 273-274): with a character outside ASCII the server fails in `decode` or leaves bytes of the string for the next header.
- C17: FFDirect pairs results and requests with `zip`; too few results (or an exception in the driver) leave requests "Running" for ever (forcefields.py:579-589).
- C18: FFEval sets "Done" inside `evaluate` and subtracts the offset afterwards (forcefields.py:394-397, 690-691); FFCommittee/FFRotations read members without joining their threads.
- C19: FFRotations.queue sets `req["status"] = "Running"` after the request is in the list (forcefields.py:1779-1782); the polling thread may have finished and removed it. FFRotations.poll removes entries from the list it iterates over and so skips the next request until the next poll (1863-1872).
- C20: a request sent with `ForceBead.queue` before positions change is answered for the old positions and cached as current (forces.py:136-141, 165-209). MTSForces.get_virs_mts queues components without mts_weights at level 0 and does not read them (649-656, 693-698); get_forces_mts indexes `mts_weights[level]` of the empty array (673-679).
- C21: only the last active index is checked (forcefields.py:181); forces are put back only if fewer than all atoms are active (sockets.py:557, 655, 849); `iactive` is kept from the first structure (169-184).
- C66: `ffweights` of a committee is set and never used (forcefields.py:1394-1406; gather 1449-1654).
- C67: the committee's extras start from those of the last member of the loop only (forcefields.py:1524). A name clash raises ValueError in the polling thread; a baseline name that is not in the list gives UnboundLocalError.
- C68: pes/metatomic.py:519-520 flattens `committee_force`/`committee_virial`; gather (1512-1522) needs them nested and raises.
- C69: FFDebye accepts a Hessian that is not symmetric; the force -Hd is then not minus the gradient of d.Hd/2 (forcefields.py:848-872). FFDebye ignores `threaded`; FFdmd returns a string where a dictionary of extras is expected (forcefields.py:790).
- FFPlumed.mtd_update calls `self.evaluate` with a plain dict, which has no `_event_done` (forcefields.py:1060-1075): AttributeError whenever the positions changed since the last evaluation.
- C26: nm_rescale.b2tob1 (nmtransform.py:301-328) is a `for … else` that always ends in the `else`: with any open path all columns are expanded with the open-path matrix. 1-D and 3-D arrays (potentials, virials) use the closed matrix for expansion but the open one for contraction.
- C70: mk_o_rs_matrix (nmtransform.py:120-134) keeps modes as for a ring (half from the fast end), although open modes are ordered by frequency.
- constrained_dynamics.py:405 calls `self.forces.forces_mts(level)`, which Forces does not have (AttributeError).
- FFPlumed: `shape[0]` of a rank-0 plumed_extras value raises IndexError.
- sockets.py:377-384: the length announced for the initialisation string counts characters, the bytes sent are UTF-8.
- C29: the Cayley propagator (normalmodes.py:502-509, 556-563) is the midpoint rule for time step dt*sqrt(nm_factor), so mode velocities are wrong by sqrt(nm_factor) unless rpmd.
- C29: get_kins (normalmodes.py:920-931) divides by nm_factor also for open paths, which are propagated with o_nm_factor; the reported energy is not conserved in pa-cmd/manual/wmax-cmd with open paths. get_kstress likewise.
- C30: an atom listed twice in open_paths gets the open-path correction twice (normalmodes.py:752-761); nothing checks for repetitions.
- C72: free_babstep ignores the dynamical mass factors (normalmodes.py:797-823).
- C27: extra_combine stores the first component's own "raw" list and appends to it in place (forces.py:1503-1556).
- C73: `virsc` is computed from `virssc` and declares only `potssc` (forces.py:986-990), printed by properties.py:698, 707; `_extras` does not depend on the component weights (828-833, 995-998).
- C74: extra_gather appends by key: a key missing in a later bead shifts the following entries (forces.py:435-475).
- C75: `*_component` leave out the multiple-time-step weights (forces.py:1205-1258).
- C25: the branch of MTSForces for an empty `mts_weights` ends in IndexError, and f_combine multiplies by the empty sum (forces.py:660-682, 1458-1473); the input default is [1.0].
- **C76** epsilon = 0 leaves f_4th_order unbound (forces.py 1300-1440): reading the fourth-order force fails; with ring-polymer contraction (alpha = 0, epsilon < 0) the displaced half-rings are mixed and the force is not minus the gradient. `alpha` is read but not declared as a dependency by fvir_4th_order.
- **C77, C32** `free_qstep` (normalmodes.py 826-918) does not know about frozen atoms: if their beads are spread they move, and the momentum they pick up is discarded by the next constraint (dynamics.py 364-397), so the step is not reversible.
- **C78** With `fixcom` and a net external force every kick along the centre of mass is removed and its energy added to `eens` (dynamics.py 379-388): the conserved quantity drifts linearly although nothing moves. SCIntegrator.pstep (718-729) and the fourth-order kicks (731-757) do not spare frozen atoms, with the same effect; the baoab variant ends with an unconstrained kick, so frozen atoms have momentum at the end of a step.
- **C33** An atom listed twice in `fixatoms` has its kinetic energy booked twice; fixcom together with frozen atoms (not reachable from the input file, inputs/motion/motion.py 339-344) leaves a total momentum.
- C80: the sign test of ThermoSVR.step (thermostats.py:525) has 2K/Kbar under the root where the projected equation has K/Kbar: for draws between -sqrt(2)w and -w the momenta should be reversed and are not (`svr_sign_refuted`).
- C80: ThermoFFL with the soft or the default rescale flip divides 0 by 0 for an atom exactly at rest, so a run started without velocities gets nan momenta (`ffl_defined_refuted`); with the hard flip a zero component stays zero for ever (`ffl_hard_stuck`).
- C81: ThermoNMGLEG.bind gives its rescaling thermostat no fixdof, so with a fixed centre of mass the centroid is driven to N/(N-1) times the temperature (`nmgleg_counts_dof_refuted`, `nmgleg_target`).
- C81: MultiThermo.bind does not pass fixcom on, so a PILE_G in the list computes (3)//nbeads constraints instead of 3 (`multi_pile_g_counts_dof_refuted`).
- C82: ThermoCL damps with exp(-0.5 dt/tau), ThermoLangevin with exp(-dt/tau), for the same documented tau (`cl_time_constant_refuted`, `cl_is_langevin`).
- C35: at an exact tie the minimum image depends on which periodic image is given: round half to even (`minimum_image_invariant_refuted`).
- C85: the comment of minimum_distance claims correctness up to the smallest width between faces; it holds up to half of it (`minimum_image_documented_refuted`, `minimum_image_close`).
- C38: logsumlog ignores the sign of the larger number: ln(1 + sb exp(lb-la)) must have sa*sb; the result is wrong whenever the larger number is negative (`logsumlog_negative`, `logsumlog_refuted`).
- C83: exp_ut3x3 uses h01*h02 where h01*h12 is needed (`exp_ut3x3_refuted`); a zero on the diagonal divides by zero (`exp_ut3x3_zero_refused`); eigensystem_ut3x3 divides eigp[1,2] twice and eigp[0,2] never (`eigensystem_refuted`). Neither function is called elsewhere.
- C37: stab_cholesky prints a warning about a negative element also for a pivot that is exactly zero and handled correctly (`cholesky_spurious_warning`).
- C40: ensemble_swap leaves external stresses alone that differ by less than 1e-10 atomic units, about 0.03 bar (`swap_complete_refuted`).
- C42: Ensemble.hweights is missing from dproperties (ensembles.py:285-298), so ensemble_swap rebinds a plain attribute: the scalings of the force components keep the values computed first (`weights_frozen`, `hamiltonian_exchange_refuted`), and exchanges between systems that differ only in these weights are always accepted (`hamiltonian_exchange_always_accepted`).
- C42: has_bias (ensembles.py:190-198) is true only if there are explicit bias components and all Hamiltonian weights are one. With other weights neither the scaled forces nor the explicit bias enter the dynamics, although both are in the conserved energy and the acceptance (`weights_switch_bias_off`, `scaled_forces_never_used`, `hamiltonian_forces_refuted`).
- C87: accepted exchanges scale the extra GLE momenta by tj/ti; the momenta of equilibrium need sqrt(tj/ti). They are scaled also when krescale is false and the bead momenta are not (`gle_scaling_refuted`, `accepted_swaps`).
- **Names of bosons (C90).** The bosonic potential depends on how the bosons are numbered (only cycles of consecutive names are summed); averages over names are those of all N! permutations (`symmetrised_weight`), but quantities compared between two numberings of one configuration differ (`names_matter_refuted`).
- **Boson and open path (C92).** An atom listed both in `bosons` and `open_paths` has its open springs added and its closed springs subtracted in normalmodes.py:749-780, leaving a spurious (negative) energy whose force is not applied (`open_boson_refuted`).  Nothing refuses that input.
- **Duplicate bosons (C92).** `resolve_bosons` checks the range of the indices only; a boson listed twice has its springs subtracted twice and its exchange with itself counted (`duplicate_boson_refuted`).
- Softexit.trigger: two threads between the test and the setting of `exiting` both run all clean-up functions (cleanup_twice_refuted).
- Several callers pass the message as status (forcefields.py:2180, 2352, 2407, 2429, mintools.py:1081), so that softexit.trigger raises instead of cleaning up (unknown_status_refuted).
- A clean-up function raising anything but RuntimeError aborts the remaining ones (other_exception_refuted); a second signal interrupts a running clean-up (second_signal_refuted); a registered thread without loop control aborts the clean-up (missing_control_refuted); two loop threads can wait for each other (join_deadlock_refuted).
- An exit asked for while the status is stored at the head of a step labels the restart file one step too far, so one step is lost on restart (exit_while_storing_refuted).
- CheckpointOutput.write does not test softexit.triggered: a checkpoint written after the request carries a step advanced by softexit (checkpoint_after_exit_refuted).
- After an exit from outside, frames written since the stored status are written again by the next run (duplicate_frames_refuted, duplicate_frames_safe_stride_refuted); the last frame of a finishing motion is never written (finished_frame_missing_refuted).
- A stride of 0 is accepted by all three inputs (test is `< 0`) and ends the run by ZeroDivisionError (zero_stride_refuted).
- open_backup puts the # before the whole path, so an existing output in a subdirectory cannot be reopened (subdirectory_refuted); two processes searching at the same time can overwrite a backup (race_loses_content_refuted).
- A checkpoint in overwrite mode is truncated in place from the second write on: killed then, neither the old nor the new one is on disk (overwritten_checkpoint_lost_refuted).
- Only the names of the output templates are compared: systems without a prefix, prefixes with underscores or names equal to a bead file share a file (same_file_*_refuted).
- C51: a trailing empty item of a list is lost by rstrip(", "); quotes are stripped; strings that look like numbers change type in dictionaries (list_empty_item_refuted, list_quotes_refuted, dict_string_type_refuted).
- C52: "number" quantities accept any unit (number_unit_refuted); a unit followed by a blank is rejected (trailing_blank_refuted).
- C53: "potential}" is parsed with the unit "potential", "potential{ev" as a name (stray_brace_refuted, open_brace_refuted).
- C94: pascal, bar and atmosphere are off by 3e-5 with respect to the energy and length units; cal/mol is the 4.1868 J calorie (pascal_coherent_refuted, calorie_refuted).
- C49: read_xyz loops over the announced number of atoms, so its check that the count agrees can never fail, and a file that ends inside a frame ends the trajectory without a message (truncated_never_reported, truncated_refuted).
- C50: read_pdb takes x from column 31 while print_pdb's field starts one column before, so x = -100.000 is read without its sign, y = 1000.000 gives its first digit to x, and y = -100.000 makes the line unreadable (pdb_sign_refuted, pdb_digit_refuted, pdb_unreadable_refuted).
- C95: the pattern for units in the comment has letters and underscores only, so forces written in ev/ang are read as atomic units without a message (written_units_refuted).
- C83: the series of exp_ut3x3 for nearly equal diagonal elements belongs to the exponential of the other element, so it is accurate to first order only although two terms are summed (`dd_series_first_order`); the series of sinch is as good as its first omitted term (`sinch_accurate`).
- C54: gfill_threaded fills out.flatten(), a copy: with threads, arrays of at least 100 elements per thread are returned uninitialised (threaded_fill_refuted).
- C55: ramps never set their initial value (ramp_start_refuted); logarithmic ramps from zero or across a change of sign fail (ramp_log_refuted).
- C59: at the end of a trajectory with an incomplete block the beads are left with frames of two blocks (incomplete_block_refuted); declared units multiply positions that were already converted from the units in the file (replay_units_refuted); files without "Bead:" shift the bead numbers to other files (files_by_bead_refuted).
- C56: atom swaps and alchemical exchanges loop forever if only one species is in the list (swap_ends_refuted).
- C56, C96: atom swaps leave the spring energy out of acceptance and of the accumulated energy, wrong for paths of several beads and different masses (swap_conserved_refuted, swap_balance_refuted).
- With one ffmpi force field every driver is taken, also drivers launched with --mpi-name of another force field (lone_force_field_takes_others_drivers_refuted).
- Drivers of two force fields launched without different --mpi-id share groups, so that a rank works for a force field it was not launched for (group_across_names_refuted).
- InterfaceMPI._dispatch puts structures of different numbers of atoms in one batch and then fails with a shape error in the polling thread (mixed_batch_fails_refuted).
- The MPI interface (and FFDirect) ignores activelist: all coordinates are sent and all forces used (active_atoms_ignored_refuted).
- **C57** velocities before masses: `ValueError(...)` is built without `raise`, then the beads are resized, which sets all positions, momenta and masses to zero; later masses make the input pass (velocities_before_masses_refuted). The same missing `raise` at the zero-volume check of a cell command (caught later by the final check). A cell of negative volume passes. An input without positions passes with all atoms at the origin although `fpos` is tracked.
- **C97** manual positions, momenta and velocities ignore the `units` attribute (units_by_hand_refuted), unlike manual masses and cells.
- **C98** velocities with mode `chk` (the default) take the positions of the checkpoint, times the masses, as momenta (checkpoint_velocities_refuted).
- **C99** momenta or velocities given for one bead are multiplied by sqrt(nbeads), so giving all beads one by one differs from giving them in one file (momenta_by_bead_refuted). Masses or labels for an atom index out of range are silently ignored.
- **C100** spline.py: the energy is e(5 x) and the force the central difference of e at 5 x, so the force is a fifth of the slope of the energy (spline_refuted, spline_fifth).
- **C100** doublewell.py returns an array with one energy per atom, each with the harmonic energy of all atoms; for more than one atom this is not an energy (dw_several_atoms_refuted). doublewell_with_bath.py and doubledoublewell.py call a bath object whose class has no `__call__`; the latter also hands the dictionary of parameters as one positional argument.
- **C101** doublewell_with_friction.py sets the barrier from its arguments and then calls the constructor of the double well without arguments, which resets it to the defaults (friction_well_refuted). Its documented order of arguments differs from the order in the code.
- **C101** driverdipole.py looks for its file names in self.args, from which the first argument has been taken as `verbose` (dipole_arguments_refuted). Morse: giving only some of the parameters silently ignores all (morse_some_parameters_refuted).
- min_approx (mintools.py): the exit for convergence returns the start position with energy and gradient of the last trial point, where the beads are left (`line_search_converged_refuted`).
- L_BFGS: the reset of an uphill direction sets +gradient instead of -gradient, and the assignment rebinds the name so that the direction of the caller is not changed (`lbfgs_reset_uphill`); the direction after a pair of non-positive curvature can go uphill (`lbfgs_uphill_refuted`); a zero pair stays in the lists and is divided by (`lbfgs_zero_pair_refuted`).
- min_trm: steps of at most 0.05 are accepted on the forces alone, the energy may rise (`trust_short_refuted`).
- FIRE: the step back after an uphill move is not limited by the maximum step (`fire_maxstep_refuted`). nichols: the shift can be equal to an eigenvalue (`nichols_shift_refuted`), the minimising step is not limited (`nichols_big_step_refuted`).
- min_brent: when the iterations run out, the function is not evaluated again at the best point, so the structure is left at the last trial point, possibly above the start (`sd_energy_refuted`).
- SDOptimizer and CGOptimizer hand over +f.d as the derivative at the start, where the line mapper returns -f.d (`sd_sign_refuted`).
- min_brent: an else belongs to the wrong if: a secant step accepted by the rule is replaced by bisection, one that is too long is taken (`brent_secant_refuted`).
- C110: constraints given separately (not inside a ConstraintList) that share an atom are projected one after the other; the last one undoes the tangency of the earlier ones (momenta_projected_sharing_refuted).
- C111: `if i == self.maxit` after `for i in range(self.maxit)` is never true: unconverged position projections are never reported (positions_never_warned, unconverged_unnoticed_refuted). With maxit = 0, i is undefined.
- C114: EckartConstraint compares the given indices with the sorted unique ones: unsorted lists are refused as "repeated", a single repeated atom is accepted (eckart_check_refuted).
- Not modelled, read only: ConstrainedDynamics.__init__ builds a ValueError for an unknown ensemble without raising it; RigidBondConstraint.gfunc calls exit() if the first coordinate is infinite.
- nm_transform (phonons.py) computes the refined matrix and then assigns dynmatrix to refdynmatrix: the output of nmfd and enmfd does not depend on the forces evaluated (nm_result_is_input, nm_refined_refuted).
- output_shift has no effect on anything that is written (output_shift_ignored, output_shift_refuted) : printall adds deltaw, but is called without it.
- asr "lin" is accepted by the input and fails at the last step, when every force has been evaluated (asr_lin_refuted).
- With fixed atoms the entries of _full.hess between fixed and free coordinates are halved: the column of a fixed coordinate is not computed, and the matrix is symmetrised with zeros (fixed_rows_refuted).
- apply_asr uses eig, not eigh, for the moments of inertia: with equal moments the axes need not be orthogonal, and a rotation stays in the matrix (poly_degenerate_refuted). With a linear molecule the division by the norm of a zero vector gives nan.
- clean_hessian counts as negative only frequencies below -4 and as zero those between -0.01 and 0.01; with one in between, positions are deleted one too early: an imaginary mode goes and a zero mode stays (clean_refuted).
- get_hessian: a temporary file cut short raises an exception on each later call, the check of its shape comes after the assignment (cut_resumes_refuted); the check of the friction files compares a flat array with a four dimensional one and is never true, so that the lowest file is used and rows are computed again (friction_work_refuted); an interruption between the first Hessian file and the first friction file loses that derivative (friction_resumes_refuted).
- BaroBZP.qcstep and BaroSCBZP.qcstep divide sinh by the cell velocity: 0/0 for a barostat exactly at rest (bzp_at_rest_refuted)
- BaroBZP.pstep: the forces in the second and third order terms leave out the bias and have those of fixed atoms, so the substep is not reversible with a bias or fixed atoms; qcstep moves fixed atoms (npt_pstep_bias_refuted, npt_pstep_fixed_refuted, fixed_atoms_move_refuted)
- BaroRGB and BaroMTK: kstress_mts has the kinetic term of the centroid on the diagonal only and the virial of the deviations transposed, and cell_jacobian takes all entries of the cell to be free: the conserved quantity changes at first order (cell_shear_refuted, cell_transposed_refuted, cell_hfix_refuted; the exact rate is cell_rate)
- BaroRGB: with a stressext that is not symmetric the work of the external stress is not the derivative of pot (rgb_asymmetric_refuted)
- BaroRGB and BaroMTK qcstep: with a cell velocity of zero diagonal the factor of the time step is missing from sinh, so that atoms jump by p/m in each step, e.g. with hfix [xx, yy, zz] (fixed_diagonal_jump_refuted); with hfix [xx, yy] the cell velocity may have no basis of eigenvectors (no_eigenvectors_refuted)
- hfix does not hold the entries of the cell: with h_xy fixed h_xy grows with v_xx (hfix_moves_cell_refuted)
- With the splitting baoab the second drift of a step uses cell momenta fresh from the thermostat, to which the mask and the volume constraint were not applied (baoab_drifts_refuted)
- AlKMC with two cells per side: the table of neighbours is padded with zeros, so site 0 can be reached from sites that are not its neighbours but not left to them (two_cells_refuted); with a small cache the same state may then be optimised twice, the second thread dies of a KeyError nobody notices and the event goes on with energy 0 (duplicate_crash_refuted)
- AlKMC.step: the look-up in the cache and the reading of the entry are not under the lock; with a full cache the oldest entry may be dropped in between, a KeyError (keyerror_refuted, for every max_cache_len)
- AlKMC.__init__: a cache file with more than max_cache_len entries is never cut down and grows on, since the count is compared with == (oversized_cache_refuted); max_cache_len = 0 gives a KeyError at once (no_cache_refuted)
- AlKMC.bind: an idx that is not a permutation is reported but used (bind_duplicate_refuted); InputAlKMC.store leaves out mode, optimizer and neval, so that a restart goes on with the defaults; ecache and qcache are written to two files one after the other
- C135: `n_threads` of InputRandom is an InputValue listed in `attribs` (inputs/prng.py 35-47). With n_threads other than 1 the checkpoint contains `<prng <n_threads>4</n_threads>` and cannot be read (prng_checkpoint_refuted).
- C139: set_default stores the default without units and does not reset the units attribute (inputvalue.py 194-203, 1096-1115). A second `<ensemble/>` after one with `<temperature units='kelvin'>` has the default temperature in kelvin (repeated_tag_refuted).
- C140: nothing is escaped on writing (inputvalue.py 248-304): a string with `<` gives an unreadable checkpoint, `a&lt;b` is read as `a<b` (text_not_escaped_refuted). Arrays of strings split elements at commas and lose empty strings at the end (string_array_refuted).
- C142: xml_write does not escape either, so a template with an entity cannot be used (template_entity_refuted).
- C143: labels are sorted in reverse alphabetical order where the comment says longest first: with labels ATEMP and TEMP, `ATEMP` becomes A followed by the value of TEMP; values are searched for later labels (label_order_refuted).
- properties.py get_kintd: with open paths the bond that closes the ring is counted (kintd_open_refuted).
- properties.py get_scyama_estimators: omegan2 of the copied forces is not scaled with the temperature; the estimator does not agree with kinetic_tdsc + potential_tdsc (sc_scaledcoords_refuted).
- properties.py get_temp: constant centroid and fixed atoms together give wrong temperatures of the modes (temp_mode_refuted); self.motion.enstype is read for motion classes that have none (temp_no_enstype).
- properties.py get_linlin, get_isotope_*: the copy of the cell is never updated (stale_cell_refuted); get_scop_estimators leaves the odd beads of the copy as they are (scop_refuted).
- properties.py get_isotope_zetasc_4th: the change of the forces on the other atoms is left out (zetasc_4th_refuted).
- properties.py get_isotope_yama, get_isotope_thermo: through logsumlog a dominating negative kinetic energy gives a wrong sum (isotope_log_refuted).
- properties.py get_kintd: atom '-1' returns the energy of the bosons (kintd_minus_one_refuted).
- properties.py Trajectories.get_isotope_zetatd: atoms that are not selected have 1 in the third column (traj_zeta_refuted); the values lack the free-particle factor of the property of the same name (traj_zetatd_mean) and those of get_isotope_zetasc are divided by the number of beads (traj_zetasc_mean). The help text of the fourth-order isotope estimators gives the last two values in the other order.
- C161: FFCavPhSocket subtracts the energy offset twice (sockets.py:551 and forcefields.py:2468); proved as cavity_offset_refuted
- C162: FFCavPhSocket with dipole_surface and a reply without "dipole" raises KeyError instead of the message of line 2407 (the check is evaluated even when the keys are missing); cavity_missing_dipole_refuted
- C164: FFCavPhSocket keeps the photon coordinates and the current request as attributes of the forcefield and waits between setting and using them; two systems stepped in threads may use each other's photons, die on None["status"] or read an unfinished result; cavity_two_threads_refuted. In addition queue waits for its result, so the beads of a path are never computed in parallel (last conjunct of cavity_one_thread_partial)
- Instanton, instanton.py 389-401 and instools.py 57-98, 156-171: with a discretisation other than one the finite-difference Hessian is weighted by the mapper and weighted again by red2comp and banded_hessian (complete_hessian_refuted).
- Instanton, instanton.py 671-687: the friction energy is added to the potential of each bead, so it counts nbeads times; the gradient has it once (friction_energy_refuted).
- Instanton, instanton.py 509-557: the second-derivative terms of the friction Hessian are overwritten (friction_hessian_refuted).
- Instanton, instanton.py 457-471: the test for a real root is outside the loop (check_eta_refuted).
- Instanton, instools.py 71-93: banded_hessian with two beads adds arrays of different lengths, ValueError (banded_two_refuted).
- Instanton, instools.py 394-466: with fixed atoms the extension fails for the L-BFGS lists, for friction tensors and for a recomputed Hessian (fix_full_3, fix_full_4, fix_full_5, lbfgs_fixed_fails, recompute_fixed_fails).
- Instanton, instanton.py 737-807: the coefficients chosen in SpringMapper.__call__ are not used, and Mapper.__call__ gives new_disc as ret (spring_hessian_refuted, mapper_disc_refuted).
- Instanton, not modelled: get_imvector formats an array with %4.1f (TypeError in the error message); NROptimizer uses the full beads and fails with fixed atoms; set_fric_spec_dens with no data calls np.arange on a tuple; diag_banded with select_range (0, n) gives n + 1 eigenvalues; opt_coef uses attributes that do not exist.
- C182 false: a field with a finite width whose peak is at or before time zero has no envelope (driven_dynamics.py:443)
- C183 false: the kick of the field uses pdt[0] = dt / 2 / nmts[0] but is done twice per step, so with nmts[0] > 1 the field is weaker by that factor (driven_dynamics.py:127)
- C185 false: frozen atoms are kicked by the field before pconstraints stops them; the energy is booked in the conserved quantity (driven_dynamics.py:126-128)
- C186 false: the mean over the atoms, not the sum, is compared with asr_threshold times the number of atoms (driven_dynamics.py:277-280)
- C188 false: a float times an array of strings raises, the bare except turns every text dipole into NaN (driven_dynamics.py:383, 390)
- C189 false: eda-nvt and eda-nve are not in the tests for a missing temperature (dynamics.py:204-233)
- C191 false: one bead divides by nbeads - 1 = 0 (planetary.py:250-255)
- C192 false: qnm[:nbeads] takes the first modes, that are not the slowest ones: mode k and mode P - k have the same frequency (planetary.py:138-140, 218-222)
- C192 false: nm.omegak[1] does not exist for a path of one bead, and more beads than the path do not broadcast (planetary.py:128-140)
- C195 false: netstring_encoded_savez gives an io.StringIO to np.savez, which writes bytes: TypeError, so that the planetary mode cannot write its matrix (io/__init__.py:477)
- C195 false: a content of length zero is written as 0:, and refused by the reader (io/__init__.py:491)
- C196 false: with three equal energies the improved tangent is that to the next image in both directions (neb.py:131-133)
- C200 false: stage endpoints without endpoints.optimize matches no branch of step (neb.py:591-599)
- C201 false: all-zero neighbours mean not initialised (neb.py:840)
- C202 false: halving a step below 0.02 gives 0.02 (neb.py:551-553)
- C203 false: the second if of the climb branch should be elif: every Hessian that is not empty is refused (neb.py:464-472); the mask is used before the mapper is bound (neb.py:427-438)
- C204 false: the climbing gradient is stored as the force of the image (neb.py:899); totals are stored as values of a weighted component (neb.py:88-98, 749-764)
- C205 false: ConstrainedDynamics calls Motion.__init__ with fixatoms (constrained_dynamics.py:80), and the input passes fixatoms_dof, which it does not accept
- C206 false: planetary loses ccdyn.fixcom, ccdyn.fixatoms_dof and nbeads; al-kmc loses the options of its optimizer; scp loses wthreshold, precheck and checkweights; neb loses corrections
- C207 false: ls_options are not stored for bfgs and lbfgs
- C208 false: hessian_asr is not stored with lbfgs
- C209 false: converged is not an option of <stage> (inputs/motion/neb.py:261-266)
- C210 false: _fpath does not declare m3 (beads.py:137-142)
- C211 false: Beads.get_kin reads self.kins, not given to dproperties (beads.py:238, 349-365)
- C212 false: with odd max_steps the mirror image of the last configuration is stored behind the array (scphonons.py:357)
- C213 false: on restart isc is 0 and configurations of earlier iterations are loaded from disk, but q and iD recorded for them are those of the checkpoint (scphonons.py:155, 264-268, 317-334)
- C214 false: the branch sd is an elif of the precheck (scphonons.py:461-482)
- C215 false: with zero statistical error, as for a harmonic potential, the strict comparison never holds (scphonons.py:631)
- C219 false: imaginary frequencies become real, they are not replaced by zero (scphonons.py:888-893)
- C223 false: negative eigenvalues below -1e-15 give nan, which no comparison excludes (vscf.py:211-212, 348, 799)
- C224 false: the walk ends only when the energy differs from the minimum by the threshold (vscf.py:498-501); the force stored as anharmonic has sqrt(np) missing in a supercell (vscf.py:480-488)
- C225 false: the first free energy is compared with 1e-20 (vscf.py:381, 446)
- C226 false: the basis with samples from a file starts at nbasis instead of nbasis - 5 (vscf.py:390, 567); np.loadtxt of one mode gives a scalar (vscf.py:790-794); v0 is set only where samples are computed (vscf.py:437)
- C231 false: the maps of one mode are looked up at inm - nz with nz the number of zero modes, but are stored without the slow ones (vscf.py:1122-1124)
- C232 false: the density is divided by its sum after every state, so earlier states lose weight (vscf.py:1353); with mixing the potential of the mode is added in full to the mixed field (vscf.py:1358-1366)
- C233 false: with use_energy vir is -V+P, then V-P, and subtracting -V gives 2V-P (forcefields.py:1025, 1046, 1051)
- C235 false: eens gets the work of the whole bias whatever bias_weights is (metad.py:87-89)
- C236 false: without compute_work the work is zero and the cached potential is kept (forcefields.py:1090-1102, metad.py:91); of systems that share a force field only the one updated has its cache corrected (metad.py:96-101)
- C237 false: system_force is the last system bound (metad.py:60); the shape of plumed_extras is looked at before it is asked for (forcefields.py:981-982)
- C238 false: names are read as bytes of length four (io_json.py:84); any ValueError is taken as the end of the file (io_json.py:79-80)
- C239 false: the title is read with count=-1 (io_binary.py:55); "".split("|") has one element (io_binary.py:53)
- C240 false: read_file_name passes the extension with its dot as mode, and auto_units compares it with "pdb" (utils/io/__init__.py:349, io_units.py:33)
- C241 false: remdsort starts from the identity whatever the replica index of the input (remdsort.py:198); formats other than xyz, ase and pdb are skipped without an error (224-238); extras are taken to be two lines long (220-223); only properties raise EOFError (208-209), so without them the loop ends with a ValueError of int("") or not at all
- C242 false: trimsim reads iline[0] of an empty string (trimsim.py:199)
- C243 false: remdsort lists five per-bead keys (remdsort.py:109-115), open_stream twelve (outputs.py:390-407); ibead = -2 writes every second bead (outputs.py:421) but the tools look for all of them (remdsort.py:130); the swap file is looked for under prefix + "." even if there is no prefix (192); trimsim misses extras_bias and does not map ase to extxyz (trimsim.py:80-85, 138)
- C244 false: run always adds one to the step (interactive.py:100) and writes RESTART with step + 1 (outputs.py:771), also if no step was made
- C245 false: the unit returned by Properties is not used (interactive.py:109-110); "dimension": "" of hweights_component and bweights_component is not a family of UnitMap
- C246 false: system.cell.h is set for every bead (interactive.py:172)
- C248 false: int(matches[-1][0]) takes the first character (parsing.py:220); values_dict is keyed by the name without units (74-79); lines that end in a newline are joined with a newline (170, 189)
- C249 false: the bead is compared with the number of beads only in write (outputs.py:489-505)
- C250 false: str(data) is the dictionary of all beads (outputs.py:558-560) although the help says one file per bead; text fields are written while the numbers are collected (586-588)
- C251 false: the sum over the even beads is divided by half the number of beads (properties.py:3012-3014)
- C252 false: dmd_update is called for every system and component (dmd.py:51-63); dmdstep is not known to the dependency system, so the force at the last positions is that of the step before, until a restart
- C255 false: CEA(obs, pot, kbT) for CEA(pot, obs, kbT) (committee-reweight.py:127); potentials is not assigned for a negative stride (175-177)
- C256 false: the reference potential is replaced by that of every frame until one is counted (paraweights.py:179); wk counts the files read at this step (199); "paratemp" is not a mode of a simulation (64)
- C257 false: cell.h is set to the numbers in the file (contract-trajectory.py:99) and print_file converts from internal units; print_file is called without key (114)
- C258 false: frames are printed before all files have been read (mux-positions.py:82); len(pos) / 3 is a float (114, 128, 131)
- C260 false: natoms = len(kin) / 3 (kinetic2tag.py:42)
- C262: no check that frames are left (effective_temperatures.py:104)
- C263 false: the pattern ends with the name (getproperty.py:26) and its group of digits may be empty
- C264 false for odd blocks: irfft is called without the number of points (acf_xyz.py:132) and the default block length is odd (38)
- C268 false for a lag of zero: "maximum_lag or 100" (acf_xyz.py:37) while getacf.py uses its own value (122-123)
- C269 false: nC[:, 0] and nC[0, :] are divided by omega0 (gle.py:113-114) while the scaling of A and D (99-102) needs a product
- C272 false: np.dot(f, ker) instead of np.dot(ker, f) (gle.py:188)
- C277 false: the pattern potential\{[a-z]*\} (energies_ppi.py:307) refuses headers without units and units with other characters, and the index counts lines, not columns (310-321)
- C278 false: read_file has no argument "output" (kinetic_energy_ppi.py:133, potential_energy_ppi.py:118, total_energy_ppi.py:133) and returns no "masses" or "units" (energy_ppi.py:98-102)
- C282 false: get_rp_freq takes eigenvalues and is given the squares of the numbers of the file, which the help (instanton_postproc.py:553-556) says is eigenvalues_reactant.dat; freq.dat has a header (line 129)
- C283 false for repeated atoms in -filt: natoms - len(filt) (instanton_postproc.py:66)
- C284 last clause false: the first half of the longer ring is not half of it (instanton_interpolation.py:80)
- C285 last clause false: new_t is equidistant in the chord parameter, not in arc length (stringmep.py:1201)
- C287 false: forces of the path before resampling (stringmep.py:1130)
- C289 false: ens.fixatoms (stringmep.py:200), self.ffixatoms_mask (193), self.climbgm.fixmask (1016), `if` for `elif` (416)
- C290 last clause false: equidistant in the chord parameter (neb_interpolate.py:88)
- C291 last clause false: type=bool of argparse (neb_interpolate.py:205)
- C292 last clause false: trace is stored as debug (ipi/inputs/simulation.py:231)
- C293 last clause false: read_git_file returns None for a packed reference (ipi/utils/messages.py:152), formatted with a width in line 249
- C294 last clause false: hyphens in the comment of a checkpoint (ipi/engine/outputs.py:66-70)
- C295 last clause false: activelist is dropped by InputFFDirect.fetch (ipi/inputs/forcefields.py:438-451) and others; max_workers, consolidate_messages, batch_size by InputFFCavPhSocket.fetch (1310-1334)
- C296 last clause false: InputFFCommittee.store has no branch for FFDirect (ipi/inputs/forcefields.py:1016-1045), allowed in 926-934
- C298 last clause false: multi is allowed for the thermostats inside (ipi/inputs/thermostats.py:344-346, shallow copy) and raises TypeError in line 299
- C300 last clause false: an inner smotion of mode multi is the dummy (ipi/inputs/smotion/smotion.py:109-111, 118-120)
- C301 last clause false: InputCheckpoint.parse catches every ValueError (ipi/inputs/outputs.py:369-374), so a stride such as 1e3 becomes 1 and later attributes are dropped
- C303 last clause false: InputInitializer.fetch calls v.fetch(initclass=...) for every chk entry (ipi/inputs/initializer.py:490-492), a TypeError for momenta, velocities and cell (fetch at 234 and 299 takes no argument)
- C308: forcefield_xml does not write the mode (ipi/scripting/templates.py:164-170), so mode unix is read as inet with port 65535 (unix_mode_refuted); the example in docs/src/python.rst:62 gives no pes and is a ValueError
- C309: motion_nvt_xml assigns xml_thermostat only if no thermostat is given (ipi/scripting/templates.py:185-209), so giving one is an UnboundLocalError (motion_thermostat_refuted)
- C310: simulation_xml looks for the array mass (ipi/scripting/templates.py:83), the masses of atoms are in masses (set_masses_refuted); ipi/utils/io/backends/io_ase.py refuses files with a column mass for that reason
- C311: structures that are not periodic in all directions are not rotated (ipi/utils/io/backends/io_ase.py:117), so their cell need not be upper triangular (slab_refuted); left handed cells get a negative diagonal entry (left_handed_refuted)
- C315: get_Ascp.py ends in an IndexError if there are fewer iterations than max_iter (tools/py/get_Ascp.py:92-103, converged_refuted), and in an UnboundLocalError if asr is neither crystal nor poly (tools/py/get_Ascp.py:52-55,79, no_sum_rule_refuted)
- C316: a2b.py writes Eforces as forces, since the pattern of the latter is found first (tools/py/a2b.py:24-26,57-64, eforces_refuted)
- C317: a2b.py ends in an UnboundLocalError for files without a label of i-PI or with units such as ev/ang (tools/py/a2b.py:72, plain_file_refuted, other_units_error)
- C318: print_pdb_path writes every bond twice for two beads (ipi/utils/io/backends/io_pdb.py:70-77, two_beads_refuted)
- C319: mergebeadspdb.py ends in an UnboundLocalError if there are no files (tools/py/mergebeadspdb.py:49, no_files_refuted)
- C320: rdf_ppi.py only writes its files when the number of frames is a multiple of a hundred (tools/py/rdf_ppi.py:198), and nothing at the end (few_frames_refuted, last_frames_ignored)
- C322: converting an XML input to JSON collects children of one name, so the order of children with different names is lost (ipi/utils/io/inputs/io_json.py:170-180, order_refuted); a child called value becomes text (value_refuted)

## Plan per property

- **C01 Dependent values are never stale** — Depend.v: network = list of nodes in topological order, each with optional function (uninterpreted, takes values of declared deps), cache + taint bit; operations set/get as in depend.py. Invariant: an untainted computed node holds its denotation and its computed ancestors that feed it are untainted. Induction over operation lists; reads refine the pure denotation.
- **C02 Dependent values are computed lazily and at most once per change** — Same model with an evaluation log; invariants about the log for set / get.
- **C03 Synchronised representations agree after writing either one** — DependSync.v: synchroniser as a list of values + manual index; refinement to 'last written'.
- **C04 A rejected assignment to a computed value has no effect** — Expected false: `set` writes the value before `update_man` raises. `_refuted` witness + theorem describing what does hold.
- **C05 Writing through a view is the same as writing the parent array** — View model sharing cache bit with the parent; equality of states; refuted part for computed arrays.
- **C06 Mode frequencies and propagators follow the temperature and the time step** — Instantiate the C01 model with the declared dependencies of NormalModes / integrator; `_refuted` where a read is undeclared.
- **C07 No force request is ever lost or run twice at the same time** — Sockets: transition system over requests, jobs, clients (consolidated mode). Invariant by induction over event lists.
- **C08 A client works on one job at a time** — Same transition system.
- **C09 Delivered forces belong to the request that asked for them** — Same transition system with ghost results.
- **C10 Requests of a vanished client are run again** — Same; plus legacy-mode model with `_refuted` (timed-out request lost).
- **C11 Batched evaluation preserves the pairing of structures and results** — Batch codec: list model, induction.
- **C12 Messages survive any fragmentation of the byte stream** — recvall over a chunked stream: list of byte chunks.
- **C13 A driver reply decodes to what was encoded, and a truncated reply is never delivered** — Codec over byte lists with section-abstracted float codec.
- **C14 Client matching policy is respected** — Pure function select over queue/clients; spec by first match in priority order.
- **C15 Dispatch makes progress** — Progress and termination of the select loop; legacy loop livelock as `_refuted`.
- **C16 Direct force evaluation answers every request exactly once, in any batching** — FFDirect state machine: requests, batch buffer, idle counter.
- **C17 A direct driver that returns too few results is detected** — Expected false: `_refuted` with short reply.
- **C18 A finished request always shows the offset-corrected energy** — Two-thread interleaving of program steps; FFEval refuted, FFDirect proved.
- **C19 Completion of a composite request is irrevocable** — Two-thread interleaving for FFRotations (expected false) and FFCommittee (proved).
- **C20 Forces read always correspond to the current positions** — ForceBead model over positions history; refuted in general, proved without moves in between.
- **C21 Active-atom restriction only exposes and moves the chosen atoms** — List gather / scatter.
- **C22 Committee statistics are correct** — Reals; derivative by stdlib derivable_pt_lim / Coquelicot.
- **C23 Rotational averaging is consistent** — Real 3-vectors as functions, weighted sums.
- **C24 Pair force fields conserve total momentum** — Sums over pairs, induction on atoms.
- **C25 Multiple-time-step force levels add up to the full force** — Linear combination over lists of components.
- **C26 Ring-polymer contraction is consistent** — Real matrices; uses C28 orthogonality.
- **C27 Reading the combined extras does not corrupt per-component extras** — Heap model of python lists; expected false, `_refuted`.
- **C28 Normal-mode transformation is orthogonal** — Real trigonometric sums, all n.
- **C29 Free ring-polymer propagator is exact, symplectic and reversible** — 2x2 real matrices.
- **C30 Spring energy and forces agree in bead and normal-mode representation** — Discrete Fourier/Parseval with circulant spring matrix.
- **C31 Multiple-time-step schedule is symmetric and covers exactly one step** — Op-list generator mirroring mtsprop*, induction on nmts.
- **C32 Microcanonical dynamics is time reversible** — State transformer over abstract vector space (real vectors), palindromic composition.
- **C33 Momentum constraints hold and their energy is accounted for** — Real sums.
- **C34 Thermostats account for all exchanged energy and keep the right temperature** — Real algebra for the step functions.
- **C35 Periodic wrapping returns the image in the primary cell** — Reals with Int_part based rounding.
- **C36 Cell parameter conversions are inverse to each other** — Real trigonometry (sin/cos/acos).
- **C37 Matrix square roots reproduce the matrix** — LDL^T recursion for all n.
- **C38 Signed log-sum-exp is correct** — Expected false for negative dominant sign; `_refuted` + partial.
- **C39 Random rotations and quaternion matrices are rotations** — Ring identities.
- **C40 Replica exchange keeps a permutation and undoes rejected moves** — List of ensembles + index list.
- **C41 Replica exchange preserves each system's conserved quantity** — Real energies.
- **C42 Hamiltonian exchange acts on the forces** — Depend model instance; expected false, `_refuted`.
- **C43 Bosonic exchange recursion is correct** — Recursions over nat-indexed reals.
- **C44 Restart continues the run exactly** — Run loop as a state machine with abstract step function.
- **C45 Clean-up runs at most once** — Softexit state machine.
- **C46 Outputs appear exactly at multiples of their stride, also across restarts** — Run loop with output log.
- **C47 A crash while writing never leaves the user without a valid checkpoint** — File-system model with crash points; expected false for the overwrite mode.
- **C48 Opening an output never destroys an existing file** — Finite map file system.
- **C49 A truncated structure file is reported** — Reader over lines; expected false for truncated frames.
- **C50 PDB files written can be read back** — Column formatting over strings; expected false.
- **C51 Input lists, tuples, dictionaries and booleans round trip through XML** — String functions.
- **C52 Unit conversions are inverse and respect prefixes** — Unit table as function; prefix parser over strings.
- **C53 Property keys are parsed into name, unit and arguments** — String functions.
- **C54 Random streams are reproducible from a saved state** — Stream model; threaded fill expected false.
- **C55 Temperature and pressure ramps hit their end points** — Reals.
- **C56 Atom-swap Monte Carlo keeps composition and the conserved energy** — Lists + reals.
- **C57 Initialising velocities before masses is refused** — Initialiser command interpreter; expected false.
- **C58 MPI driver ranks are partitioned among force fields** — Finite maps / lists.
- **C59 Replaying a trajectory after a restart continues at the right frame** — List of frames.
- **C60 Composite motions stop and advance consistently** — Lists.
- **C61 Skipping a declared dependency does not make values stale** — Depend model with skipped reads; false, `_refuted`.
- **C62 Element writes through a kept reference see the current array** — Depend view model; false, `_refuted`.
- **C63 Reshaping an array does not change its contents** — Depend view model; false, `_refuted`.
- **C64 A malformed reply from one client does not stop the others** — Socket event model; false, `_refuted`.
- **C65 The reference driver and the server understand each other** — Both ends of the protocol modelled on bytes; composition of encoder, driver loop and decoder; false for non-ASCII extras.
- **C66-C68 Committee weights, extras, bundled drivers** — model of gather with the members' messages; false, `_refuted`.
- **C69 Built-in force fields are conservative** — Reals, derivable_pt_lim along every displacement; false for asymmetric Hessians.
- **C70 Contracting an open path keeps its slowest modes** — Expected false; use C28 orthogonality.
- **C71 Dynamical mode frequencies** — Real algebra on get_nmm.
- **C72 Cartesian propagator** — Transform one velocity-Verlet step to mode space; induction on nmts.
- **C73 Combined force quantities follow their inputs** — instance of the Depend network; virsc and extras refuted.
- **C74, C75 Extras per bead, component outputs** — lists and real sums; refuted with restricted theorems.
- **C76 Suzuki-Chin forces** — reals; directional derivatives; limit of the finite difference.
- **C77, C78 Frozen atoms, momentum and constraint energy** — invariant `constrained` preserved by every block of the schedule.
- **C83–C86 Matrix tools and cells** — reals; eigenvector formulation of exponentials; Gram matrices for cells; Schur complements for C37.
- **C87, C88 Thermostat momenta and detailed balance in exchanges** — refuted with witness; reals.
- **C89–C91 Exchange potential** — induction on the number of bosons for weights A_m; permanents over arrangements for C90; derivatives of the recursion for C89 and C91.
- **C92 Assembly of spring energies** — columns of the normal-mode energy; refuted for overlapping lists.
- C57, C97-C99 (InitProps): init_stage1 as a fold over commands; refusals by case analysis, positions kept by induction on commands, one frame to all beads from the row sums of the contraction matrix.
- C100-C102 (PesProps): directional derivatives with Coquelicot's auto_derive, summed over atoms; batches by induction on the list.
- C103-C107: minimisers; linear algebra of positive definite matrices in MinLin, invariants over iterations in MinSearch, optimality of the trust radius step by the eigensystem in MinProps.
- C108, C109: invariant of the bracket (order, energies) over all branches; invariant of the search (best energy, ends not below it).
- C110-C114: constrained dynamics. Linear algebra on the Gram matrix (positive definite for independent rows), Newton iteration invariants, derivatives by auto_derive, invariant `good` over compositions of substeps.
- C127-C132: kinetic Monte Carlo; the lattice through the integer quadratic form of fcc, the runs by induction on the number of steps, the threads by an invariant of the shared state
- C133-C134: induction over the tree with the stack of open elements; the printed form is read character by character with an invariant on the reader. C135-C138: the text is the printed form of a tree; by induction over the class the tree is parsed to an object with the same written values; a field that is left out is the same as the default because equal texts are equal trees. C136: induction over the class. C139-C140: witnesses computed by the kernel. C141-C142: xml_write is the printed form of a tree with layout; rd, read_list and read_tuple do not see blanks at the ends. C143: sortedness of the insertion sort. C144: induction over the tree.
- C145-C158: sums over selections are sums over atoms; the estimators of energies by differentiation of the action; scaled coordinates by the chain rule and symmetric differences; isotopes by the change of the action with one mass.
- C159-C165: complete the square and differentiate along coordinates; case analysis of the checks; invariant of the program counter of the single thread; witnesses for two threads
- Instanton: done (C166-C181).
- C182-C189 | DrivProps
- C190-C195 | PlanProps, SparseProps
- C196-C204 | NebProps, NebConv
- C205-C209 | BuildProps
- C210-C211 | BeadsNet
- C212-C215 | ScpProps, ScpAvg
- C216-C218 | ScpAvg
- C219-C222 | ScpMat
- C223-C226 | VscfProps
- C227, C228 | VscfSolve
- C229-C232 | VscfMap
- C233-C237 | PlumedProps
- C238-C240 | FrameProps
- C241-C243 | SortProps, SortRemd
- C244-C248 | ScriptProps
- C249-C251 | TrajProps
- C252 | DmdProps
- C253-C256 | RewProps
- C257-C263 | ToolProps
- C264-C268 | AcfLin, AcfProps
- C269-C272 | GleLin, GleProps
- C273-C278 | PpiProps
- C279-C284 | PostProps
- C285-C289 | StrProps
- C290-C291 | NebiProps
- C292-C294 | MsgProps
- C295-C297 | FfinProps
- C298-C299 | BathProps
- C300 | SmoProps
- C301-C302 | OutsProps
- C303-C304 | IniProps
- C305-C307 | NmiProps
- C308-C310 | TmplProps
- C311-C312 | AseProps
- C313-C315 | AscpProps
- C316-C317 | A2bProps
- C318-C319 | PolyProps
- C320-C321 | RdfProps
- C322-C323 | JsonProps, JsonTight
- C324 | PbcProps
