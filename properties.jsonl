{"id": "C01", "title": "Dependent values are never stale", "statement": "After any history of value assignments and reads, reading any dependent value succeeds and returns exactly what its function gives when every input is recomputed from the values last assigned by the user, provided each function reads only dependencies it declares, and skips a declared one only if it is a primitive value or an input of something it does read.", "quantifier": "every acyclic dependency network, every interpretation of the functions, every finite sequence of assignments and reads", "why_tests_cant": "The cache invalidation logic can go wrong only for particular interleavings of reads and writes on particular graph shapes; there are infinitely many graphs and histories.", "anchors": ["ipi/utils/depend.py: depend_base.taint, depend_base.update_auto, depend_base._refresh, depend_value.get, depend_value.set"]}
{"id": "C02", "title": "Dependent values are computed lazily and at most once per change", "statement": "A read evaluates a function only if some ancestor was assigned since the last evaluation, and two consecutive reads with no assignment in between evaluate nothing the second time; an assignment by itself evaluates nothing.", "quantifier": "every acyclic dependency network and every sequence of assignments and reads", "why_tests_cant": "Counts of driver evaluations over arbitrary histories; a test only sees one history.", "anchors": ["ipi/utils/depend.py: depend_base._refresh, depend_base.taint, depend_value.get"]}
{"id": "C03", "title": "Synchronised representations agree after writing either one", "statement": "When several arrays represent the same quantity (bead and normal-mode coordinates), after any sequence of writes to any of them and reads of any of them, each one reads as the conversion of the last one written.", "quantifier": "every number of synchronised representations, all conversion functions, all sequences of writes and reads", "why_tests_cant": "Depends on the history of which representation was written last and which had been refreshed.", "anchors": ["ipi/utils/depend.py: synchronizer, depend_base._taint_synchro, depend_base.update_auto, depend_base.update_man"]}
{"id": "C04", "title": "A rejected assignment to a computed value has no effect", "statement": "Assigning to an automatically computed value raises NameError and leaves what later reads return unchanged.", "quantifier": "every network, every computed value, every assigned value", "why_tests_cant": "Requires reasoning over the state left after an exception for every graph and cache state.", "anchors": ["ipi/utils/depend.py: depend_value.set, depend_base.update_man"]}
{"id": "C05", "title": "Writing through a view is the same as writing the parent array", "statement": "Writing an element through a row view of a dependent array (beads.q[i], beads[i].q) invalidates exactly what writing the same element of the parent array invalidates, and a view of a computed array refuses writes as its parent does.", "quantifier": "all parent arrays, all views, all element indices, all cache states", "why_tests_cant": "Aliasing behaviour over all cache states.", "anchors": ["ipi/utils/depend.py: depend_array.__getitem__, depend_array.__setitem__, depend_array.set"]}
{"id": "C06", "title": "Mode frequencies and propagators follow the temperature and the time step", "statement": "After the ensemble temperature, the time step or the masses are changed, every derived quantity used by the integrator (normal-mode mass factors, time-step over mass factors) is recomputed from the new values.", "quantifier": "every assignment history to temperature, time step and masses", "why_tests_cant": "Missing dependency declarations only show for a particular order of reads and writes.", "anchors": ["ipi/engine/normalmodes.py: NormalModes.bind, get_nmm, get_dynm3", "ipi/engine/motion/dynamics.py: DummyIntegrator.bind"]}
{"id": "C07", "title": "No force request is ever lost or run twice at the same time", "statement": "In consolidated socket mode, at every instant every outstanding force request is exactly one of: queued, running in exactly one job on one connected client, or done; this survives any client connecting, replying, hanging or dropping at any time.", "quantifier": "all sequences of client connections, disconnections, replies, timeouts, queueing and releasing of requests, any number of clients and requests", "why_tests_cant": "Schedule and crash-point dependent; exhaustive enumeration is impossible.", "anchors": ["ipi/interfaces/sockets.py: InterfaceSocket.pool_update, _pool_distribute_select, dispatch_free_client, check_job_finished, _requeue_disconnected"]}
{"id": "C08", "title": "A client works on one job at a time", "statement": "The socket interface never sends positions to a client that already has a job outstanding, and never assigns the same client to two requests.", "quantifier": "all schedules of client and server events", "why_tests_cant": "Schedule dependent.", "anchors": ["ipi/interfaces/sockets.py: InterfaceSocket.dispatch_free_client, _pool_distribute_select"]}
{"id": "C09", "title": "Delivered forces belong to the request that asked for them", "statement": "When a request becomes Done, its potential is the value its client computed for that very request minus the force-field offset subtracted exactly once, and its forces/virial/extras are that client's unmodified.", "quantifier": "all schedules, any number of requeues before the request completes, all offsets", "why_tests_cant": "Mix-ups appear only under particular interleavings of disconnects and redispatch.", "anchors": ["ipi/interfaces/sockets.py: InterfaceSocket.check_job_finished, dispatch_free_client, DriverSocket.dispatch_recv"]}
{"id": "C10", "title": "Requests of a vanished client are run again", "statement": "If a client disconnects or exceeds the timeout while running a request, the request becomes queued again and will be dispatched to another client; other requests are undisturbed.", "quantifier": "all states of the pool, all disconnect/timeout events, consolidated and legacy threaded modes", "why_tests_cant": "Crash-point dependent: the failure can strike in any state.", "anchors": ["ipi/interfaces/sockets.py: InterfaceSocket.pool_update, _requeue_disconnected, check_job_finished, pool_distribute"]}
{"id": "C11", "title": "Batched evaluation preserves the pairing of structures and results", "statement": "A batch of requests, padded to the batch size, is sent to one client; reply k is delivered to the k-th request of the batch and padding replies are discarded, for every batch size and number of waiting requests.", "quantifier": "all batch sizes, all numbers of requests, all reply contents", "why_tests_cant": "Off-by-one and padding cases over unbounded sizes.", "anchors": ["ipi/interfaces/sockets.py: DriverSocket.dispatch_send_batch, dispatch_recv_batch, _recv_forces_bulk_batch"]}
{"id": "C12", "title": "Messages survive any fragmentation of the byte stream", "statement": "Whatever way the network splits a driver's reply into chunks, the server reconstructs exactly the bytes the driver sent and consumes no byte of the following message.", "quantifier": "all replies, all splittings of the stream into non-empty chunks, all following data", "why_tests_cant": "The number of fragmentations is exponential in the message length.", "anchors": ["ipi/interfaces/sockets.py: DriverSocket.recvall, _recv_forces_bulk, getforce"]}
{"id": "C13", "title": "A driver reply decodes to what was encoded, and a truncated reply is never delivered", "statement": "Decoding the force message of any driver returns its energy, forces, virial and extra string; any proper prefix of that message followed by a closed connection yields a disconnection, never a result.", "quantifier": "all energies, forces, virials, extra strings, all truncation points", "why_tests_cant": "Unbounded message contents and truncation points.", "anchors": ["ipi/interfaces/sockets.py: DriverSocket._recv_forces_bulk, recvall, Message"]}
{"id": "C14", "title": "Client matching policy is respected", "statement": "In 'lock' mode a client that has served a request id is only given requests with that id; in every mode a dispatch decision is always among the candidates the policy allows and the oldest compatible request in the queue is chosen.", "quantifier": "all queues, all clients with any last-served id, all policies", "why_tests_cant": "Quantifies over all queue contents and policies.", "anchors": ["ipi/interfaces/sockets.py: InterfaceSocket.dispatch_free_client"]}
{"id": "C15", "title": "Dispatch makes progress", "statement": "If a connected idle client that is allowed to take a waiting request exists, one polling pass dispatches a request; and a polling pass always terminates.", "quantifier": "all pool states", "why_tests_cant": "Termination and progress are not testable by finite runs.", "anchors": ["ipi/interfaces/sockets.py: InterfaceSocket._pool_distribute_select, pool_distribute"]}
{"id": "C16", "title": "Direct force evaluation answers every request exactly once, in any batching", "statement": "Each queued request is evaluated exactly once by a direct driver, receives its own result with the offset removed once, and an incomplete batch is flushed after a bounded number of idle polls.", "quantifier": "all batch sizes, all interleavings of queueing and polling, all drivers that return one result per structure", "why_tests_cant": "Unbounded interleavings of queue and poll.", "anchors": ["ipi/engine/forcefields.py: FFDirect.poll, FFDirect.evaluate, FFDirect.launch_batch, FFDirect._process_results"]}
{"id": "C17", "title": "A direct driver that returns too few results is detected", "statement": "If a batched direct driver returns a number of results different from the number of structures, an error is raised or the request is retried; no request remains running forever.", "quantifier": "all batch sizes and driver reply lengths", "why_tests_cant": "Concerns the eventual fate of requests (liveness).", "anchors": ["ipi/engine/forcefields.py: FFDirect.launch_batch"]}
{"id": "C18", "title": "A finished request always shows the offset-corrected energy", "statement": "Whenever an observer sees a request as Done, its potential already has the force-field offset removed.", "quantifier": "all interleavings of the evaluation thread and an observing thread", "why_tests_cant": "Race window: depends on thread schedule.", "anchors": ["ipi/engine/forcefields.py: FFEval._eval_thread, FFEval.evaluate, FFLennardJones.evaluate, FFDirect._process_results"]}
{"id": "C19", "title": "Completion of a composite request is irrevocable", "statement": "Once a committee or rotation-averaged request has been marked Done it stays Done, so that the thread waiting for it gets its result.", "quantifier": "all interleavings of the queueing thread with the polling thread", "why_tests_cant": "Race window between two threads.", "anchors": ["ipi/engine/forcefields.py: FFRotations.queue, FFRotations.poll, FFCommittee.queue, FFCommittee.poll"]}
{"id": "C20", "title": "Forces read always correspond to the current positions", "statement": "Reading the forces of a replica returns the force-field result for the positions and cell held at the time of the read.", "quantifier": "all histories of queueing, moving atoms and reading forces", "why_tests_cant": "Depends on the order of queue, write and read events.", "anchors": ["ipi/engine/forces.py: ForceBead.queue, ForceBead.get_all"]}
{"id": "C21", "title": "Active-atom restriction only exposes and moves the chosen atoms", "statement": "With an active-atom list the driver sees exactly the coordinates of those atoms in order; forces on them are scattered back to the right atoms and are zero elsewhere; an out-of-range index is rejected.", "quantifier": "all systems, all active lists", "why_tests_cant": "Index-mapping over all lists, including unsorted ones.", "anchors": ["ipi/engine/forcefields.py: ForceField.queue", "ipi/engine/forces.py: ForceBead.get_f"]}
{"id": "C22", "title": "Committee statistics are correct", "statement": "The committee potential is the mean of the members, rescaling by alpha keeps the mean and multiplies the spread by alpha, and with a weighted baseline the reported force is exactly minus the gradient of the reported potential.", "quantifier": "all committee sizes, member potentials (differentiable functions), weights alpha and baseline uncertainties", "why_tests_cant": "A statement about derivatives of arbitrary member potentials.", "anchors": ["ipi/engine/forcefields.py: FFCommittee.gather"]}
{"id": "C23", "title": "Rotational averaging is consistent", "statement": "If the inner model is exactly rotationally equivariant then the averaged potential, force and virial equal those of the inner model; the averaged result does not depend on a common scaling of the quadrature weights.", "quantifier": "all quadrature grids of orthogonal matrices with nonzero total weight, all positions, all equivariant models", "why_tests_cant": "Quantifies over all rotations and models.", "anchors": ["ipi/engine/forcefields.py: FFRotations.queue, FFRotations.gather"]}
{"id": "C24", "title": "Pair force fields conserve total momentum", "statement": "For the built-in pair potentials the forces on all atoms sum to zero and the force is antisymmetric under exchange of atoms.", "quantifier": "any number of atoms and any positions, any pair function", "why_tests_cant": "Unbounded atom numbers.", "anchors": ["ipi/engine/forcefields.py: FFLennardJones.evaluate, FFdmd.evaluate"]}
{"id": "C25", "title": "Multiple-time-step force levels add up to the full force", "statement": "The forces attributed to the multiple-time-step levels sum to the total force, and with the potential weights equal the declared linear combination of components; components with zero weight neither run nor contribute.", "quantifier": "any number of components, levels, weights and forces", "why_tests_cant": "Unbounded lists of components and weights.", "anchors": ["ipi/engine/forces.py: Forces.f_combine, MTSForces, Forces.pot_combine, Forces.queue"]}
{"id": "C26", "title": "Ring-polymer contraction is consistent", "statement": "Contracting to n' beads and expanding back preserves the centroid; expanding then contracting is the identity; the force back-transform is (n/n') times the transpose of the position transform, so that contracted forces are the gradient of the contracted potential.", "quantifier": "all bead numbers n and n', all coordinates", "why_tests_cant": "Trigonometric identity for every pair of bead numbers.", "anchors": ["ipi/utils/nmtransform.py: mk_rs_matrix, nm_rescale.b1tob2, nm_rescale.b2tob1"]}
{"id": "C27", "title": "Reading the combined extras does not corrupt per-component extras", "statement": "Reading the merged extras any number of times returns the same value and leaves the extras of each component unchanged.", "quantifier": "any number of components, beads and reads", "why_tests_cant": "Aliasing over histories of reads.", "anchors": ["ipi/engine/forces.py: Forces.extra_combine, Forces.extras_component"]}
{"id": "C28", "title": "Normal-mode transformation is orthogonal", "statement": "Transforming bead coordinates to normal modes and back is the identity, the transformation preserves the sum of squares (kinetic energy), and the lowest mode is sqrt(n) times the centroid.", "quantifier": "every number of beads n>=1 and all coordinates", "why_tests_cant": "Trigonometric orthogonality for every n.", "anchors": ["ipi/utils/nmtransform.py: mk_nm_matrix, mk_o_nm_matrix, nm_trans.b2nm, nm_trans.nm2b"]}
{"id": "C29", "title": "Free ring-polymer propagator is exact, symplectic and reversible", "statement": "The propagator for each mode conserves the mode energy, has unit determinant, composing two steps equals one longer step, and a negative step undoes a positive one; to first order in dt it solves Hamilton's equations for the declared mode mass.", "quantifier": "all frequencies, mode mass factors and time steps, exact and Cayley propagators", "why_tests_cant": "Real-parameter families.", "anchors": ["ipi/engine/normalmodes.py: NormalModes.get_prop_pq, free_qstep"]}
{"id": "C30", "title": "Spring energy and forces agree in bead and normal-mode representation", "statement": "The sum over normal modes of half m omega_k^2 |q_k|^2 equals the harmonic spring energy summed over neighbouring beads of the ring.", "quantifier": "every number of beads, masses, positions, temperature", "why_tests_cant": "Identity for every n.", "anchors": ["ipi/engine/normalmodes.py: NormalModes.get_vspring_and_fspring", "ipi/utils/nmtransform.py: nm_eva", "ipi/engine/beads.py: Beads.get_vpath"]}
{"id": "C31", "title": "Multiple-time-step schedule is symmetric and covers exactly one step", "statement": "For every list of nesting factors the sequence of kicks and drifts generated in one step is palindromic, the drifts add up to dt and the kicks of every level add up to dt.", "quantifier": "all nested MTS factor lists and both splittings", "why_tests_cant": "Unbounded nesting depth and factors.", "anchors": ["ipi/engine/motion/dynamics.py: NVEIntegrator.mtsprop_ba, mtsprop_ab, mtsprop, DummyIntegrator.get_qdt, get_pdt"]}
{"id": "C32", "title": "Microcanonical dynamics is time reversible", "statement": "Running a step, reversing all momenta, running a step and reversing again restores positions and momenta exactly (exact arithmetic), for every force field.", "quantifier": "all force functions, positions, momenta, time steps and MTS nesting", "why_tests_cant": "All force fields and states.", "anchors": ["ipi/engine/motion/dynamics.py: NVEIntegrator.step, pstep, qcstep"]}
{"id": "C33", "title": "Momentum constraints hold and their energy is accounted for", "statement": "After every constraint application the total momentum is zero (fixcom) and frozen atoms have zero momentum (fixatoms), and kinetic energy plus the accumulated ensemble energy is unchanged.", "quantifier": "all masses, momenta, bead numbers and frozen sets", "why_tests_cant": "All system sizes and momenta.", "anchors": ["ipi/engine/motion/dynamics.py: DummyIntegrator.pconstraints"]}
{"id": "C34", "title": "Thermostats account for all exchanged energy and keep the right temperature", "statement": "Kinetic energy plus accumulated thermostat energy is invariant under each Langevin, velocity-rescaling and GLE step for every outcome of the random numbers; the Langevin coefficients leave the Maxwell variance stationary; the rescaling factor squared is never negative.", "quantifier": "all momenta, masses, temperatures, time constants and random numbers", "why_tests_cant": "All random outcomes.", "anchors": ["ipi/engine/thermostats.py: ThermoLangevin.step, ThermoSVR.step, ThermoGLE.step, ThermoPILE_L.bind"]}
{"id": "C35", "title": "Periodic wrapping returns the image in the primary cell", "statement": "Wrapping moves an atom by an integer combination of cell vectors, lands in the primary cell (fractional coordinates within half a cell of the origin), and wrapping twice is the same as wrapping once; the minimum-image vector is unchanged when either atom is moved by a lattice vector.", "quantifier": "all invertible upper-triangular cells and positions", "why_tests_cant": "All real cells and positions.", "anchors": ["ipi/engine/cell.py: GenericCell.apply_pbc, array_pbc, minimum_distance", "ipi/utils/distance.py: vector_separation"]}
{"id": "C36", "title": "Cell parameter conversions are inverse to each other", "statement": "Converting cell lengths and angles to a cell matrix and back returns the same numbers; the inverse matrix is a two-sided inverse and the determinant is the volume.", "quantifier": "all non-degenerate cells", "why_tests_cant": "All real cells.", "anchors": ["ipi/utils/mathtools.py: abc2h, h2abc, invert_ut3x3, det_ut3x3"]}
{"id": "C37", "title": "Matrix square roots reproduce the matrix", "statement": "The stabilised Cholesky factor S is lower triangular with a non-negative diagonal, reads only the lower triangle of M, and satisfies S S^T = M for every positive semi-definite M, also when pivots vanish (where an ordinary Cholesky decomposition breaks down).", "quantifier": "all sizes n, all symmetric positive semi-definite matrices", "why_tests_cant": "Every matrix dimension and every rank.", "anchors": ["ipi/utils/mathtools.py: stab_cholesky"]}
{"id": "C38", "title": "Signed log-sum-exp is correct", "statement": "logsumlog on two signed logarithms returns the logarithm and the sign of the signed sum.", "quantifier": "all logarithms and signs", "why_tests_cant": "All reals and signs.", "anchors": ["ipi/utils/mathtools.py: logsumlog"]}
{"id": "C39", "title": "Random rotations and quaternion matrices are rotations", "statement": "Every matrix produced from a unit quaternion or from Euler angles is orthogonal with determinant one, so that lengths are preserved.", "quantifier": "all unit quaternions and angles", "why_tests_cant": "All reals.", "anchors": ["ipi/utils/mathtools.py: quat2rot, euler_zxz_to_matrix, random_rotation"]}
{"id": "C40", "title": "Replica exchange keeps a permutation and undoes rejected moves", "statement": "At all times the replica index list is a permutation; a rejected exchange restores temperatures, pressures, momenta and weights exactly; an accepted one swaps the ensembles of the two systems and nothing else.", "quantifier": "any number of systems, any attempt/acceptance history", "why_tests_cant": "All random acceptance histories.", "anchors": ["ipi/engine/smotion/remd.py: ReplicaExchange.step", "ipi/engine/ensembles.py: ensemble_swap"]}
{"id": "C41", "title": "Replica exchange preserves each system's conserved quantity", "statement": "After any number of accepted or rejected exchanges the conserved quantity of every system is unchanged.", "quantifier": "all energies, temperatures and acceptance histories", "why_tests_cant": "All histories.", "anchors": ["ipi/engine/smotion/remd.py: ReplicaExchange.step"]}
{"id": "C42", "title": "Hamiltonian exchange acts on the forces", "statement": "When Hamiltonian weights are swapped or differ from one, the bias energy and forces used by the dynamics and by the acceptance test follow the weights.", "quantifier": "all weights and histories of exchanges", "why_tests_cant": "Histories of swaps and cached values.", "anchors": ["ipi/engine/ensembles.py: Ensemble.bind, ensemble_swap, has_bias"]}
{"id": "C43", "title": "Bosonic exchange recursion is correct", "statement": "The recursion for cycle energies gives the ring spring energy of each cycle; the bosonic potential equals the recursive average over cycles independently of the numerical shift; the connection probabilities are non-negative and each row and column sums to one.", "quantifier": "any number of bosons and beads, all positions, all temperatures", "why_tests_cant": "Recursion over unbounded particle number.", "anchors": ["ipi/utils/exchange.py: ExchangePotential.get_cycle_energies, get_prefix_V, get_suffix_V, evaluate_connection_probs"]}
{"id": "C44", "title": "Restart continues the run exactly", "statement": "Stopping a deterministic run after any completed step with a clean exit and restarting from the restart file gives the same final state as the uninterrupted run.", "quantifier": "all step functions, all numbers of steps, all interruption points", "why_tests_cant": "Every crash point of every run.", "anchors": ["ipi/engine/simulation.py: Simulation.run, run_step, softexit", "ipi/engine/outputs.py: CheckpointOutput", "ipi/inputs/simulation.py: InputSimulation.store, fetch"]}
{"id": "C45", "title": "Clean-up runs at most once", "statement": "However many threads request a soft exit, every registered clean-up function runs at most once, in registration order, and every registered loop is told to stop.", "quantifier": "all sequences of exit requests and registered functions", "why_tests_cant": "Schedules of exit requests.", "anchors": ["ipi/utils/softexit.py: Softexit.trigger, Softexit.cleanup"]}
{"id": "C46", "title": "Outputs appear exactly at multiples of their stride, also across restarts", "statement": "The sequence of steps written to an output equals the multiples of its stride, and splitting the run in two by a restart gives the same sequence.", "quantifier": "all strides, run lengths and restart points", "why_tests_cant": "All strides and crash points.", "anchors": ["ipi/engine/outputs.py: BaseOutput.active, PropertyOutput.write", "ipi/engine/simulation.py: Simulation.run"]}
{"id": "C47", "title": "A crash while writing never leaves the user without a valid checkpoint", "statement": "Whatever the point at which the process is killed, the last complete checkpoint can still be found on disk.", "quantifier": "all crash points during checkpoint writing", "why_tests_cant": "Crash-point dependent.", "anchors": ["ipi/engine/outputs.py: CheckpointOutput.write", "ipi/utils/io/__init__.py: open_backup"]}
{"id": "C48", "title": "Opening an output never destroys an existing file", "statement": "Opening an output file for writing moves any existing file of that name to a fresh backup name; no previously existing content is lost, for any set of existing files.", "quantifier": "all directory contents, all file names, all sequences of openings", "why_tests_cant": "All directory states.", "anchors": ["ipi/utils/io/__init__.py: open_backup"]}
{"id": "C49", "title": "A truncated structure file is reported", "statement": "Reading an xyz frame with fewer atoms than announced raises an error; reading a well-formed frame returns its atoms.", "quantifier": "all frames and truncation points", "why_tests_cant": "All truncation points.", "anchors": ["ipi/utils/io/backends/io_xyz.py: read_xyz, print_xyz"]}
{"id": "C50", "title": "PDB files written can be read back", "statement": "Reading a PDB frame written by the program gives the written coordinates (to the printed precision).", "quantifier": "all coordinates within the field width", "why_tests_cant": "All coordinates.", "anchors": ["ipi/utils/io/backends/io_pdb.py: print_pdb, read_pdb"]}
{"id": "C51", "title": "Input lists, tuples, dictionaries and booleans round trip through XML", "statement": "Writing a list, tuple, dictionary or boolean as an input string and reading it back gives the same value.", "quantifier": "all lists of printable items without the delimiter", "why_tests_cant": "Unbounded strings.", "anchors": ["ipi/utils/io/inputs/io_xml.py: read_list, write_list, read_tuple, write_tuple, read_dict, write_dict, read_bool, write_bool"]}
{"id": "C52", "title": "Unit conversions are inverse and respect prefixes", "statement": "Converting to internal units and back is the identity; a metric prefix multiplies the conversion factor by the corresponding power of ten; an unknown unit is rejected.", "quantifier": "all unit names, prefixes, values", "why_tests_cant": "All strings.", "anchors": ["ipi/utils/units.py: unit_to_internal, unit_to_user"]}
{"id": "C53", "title": "Property keys are parsed into name, unit and arguments", "statement": "The name, unit, positional and keyword arguments of an output key are recovered from its written form.", "quantifier": "all names, units and argument lists without reserved characters", "why_tests_cant": "Unbounded strings.", "anchors": ["ipi/engine/properties.py: getall, getkey"]}
{"id": "C54", "title": "Random streams are reproducible from a saved state", "statement": "Saving the generator state and restoring it later reproduces the same numbers; filling an array with random numbers fills every element from the stream, with or without threads.", "quantifier": "all states, all numbers of streams, all array sizes", "why_tests_cant": "All states and lengths.", "anchors": ["ipi/utils/prng.py: Random, gfill, gfill_threaded, set_state"]}
{"id": "C55", "title": "Temperature and pressure ramps hit their end points", "statement": "A ramp starts at the initial value, reaches exactly the final value at the last step, stays there, and is monotonic in between.", "quantifier": "all start/end values and numbers of steps, linear and logarithmic", "why_tests_cant": "All real parameters.", "anchors": ["ipi/engine/motion/ramp.py: TemperatureRamp.step, PressureRamp.step"]}
{"id": "C56", "title": "Atom-swap Monte Carlo keeps composition and the conserved energy", "statement": "Any sequence of swap attempts leaves the multiset of species unchanged and keeps potential plus accumulated ensemble energy constant; a step always terminates.", "quantifier": "all systems and random sequences", "why_tests_cant": "Random histories and termination.", "anchors": ["ipi/engine/motion/atomswap.py: AtomSwap.step", "ipi/engine/motion/alchemy.py: AlchemyMC.step"]}
{"id": "C57", "title": "Initialising velocities before masses is refused", "statement": "An input that initialises velocities before masses, or a cell with zero volume, is rejected with an error; positions set earlier are not destroyed.", "quantifier": "all initialisation sequences", "why_tests_cant": "All orders of initialisation commands.", "anchors": ["ipi/engine/initializer.py: Initializer.init_stage1"]}
{"id": "C58", "title": "MPI driver ranks are partitioned among force fields", "statement": "Every driver root is assigned to exactly one force field with the matching name, or start-up is refused; results unpacked from a message go to the requests in the order they were packed.", "quantifier": "all sets of driver names and force fields, all batch contents", "why_tests_cant": "All configurations.", "anchors": ["ipi/interfaces/mpi.py: MPIWorldManager._assign, InterfaceMPI._dispatch, InterfaceMPI._unpack_results"]}
{"id": "C59", "title": "Replaying a trajectory after a restart continues at the right frame", "statement": "Replay at simulation step s loads frame s of the file, whether or not the run was restarted in between.", "quantifier": "all trajectories, restart points", "why_tests_cant": "All restart points.", "anchors": ["ipi/engine/motion/replay.py: Replay.step"]}
{"id": "C60", "title": "Composite motions stop and advance consistently", "statement": "A multi-motion's time step is the sum of its parts, an atom counts as fixed only if all parts fix it, and once one part has finished no later part is executed in that step.", "quantifier": "all lists of motions", "why_tests_cant": "All compositions.", "anchors": ["ipi/engine/motion/multi.py: MultiMotion"]}
{"id": "C61", "title": "Skipping a declared dependency does not make values stale", "statement": "Values stay up to date also when a function declares a dependency it does not read on every evaluation; in particular the conserved energy follows a change of temperature although the spring energy declares the bead positions but reads only the normal modes.", "quantifier": "all networks whose functions read a subset of what they declare, all histories", "why_tests_cant": "Needs the one order of reads and writes in which an unread stale dependency is refreshed after its dependant was read.", "anchors": ["ipi/utils/depend.py: depend_base.taint, depend_base.update_auto", "ipi/engine/ensembles.py: Ensemble.get_econs", "ipi/engine/normalmodes.py: NormalModes.bind, get_vspring_and_fspring"]}
{"id": "C62", "title": "Element writes through a kept reference see the current array", "statement": "Assigning one element of a dependent array through a reference kept by the caller changes that element and leaves the others at their current value, whatever was written to synchronised representations in between.", "quantifier": "all synchronised arrays, all histories, all element positions", "why_tests_cant": "History dependent aliasing.", "anchors": ["ipi/utils/depend.py: depend_array.__setitem__"]}
{"id": "C63", "title": "Reshaping an array does not change its contents", "statement": "Taking a reshaped or flattened view of a dependent array does not change what later reads of the array return.", "quantifier": "all arrays, all cache states", "why_tests_cant": "Only fails when the array is waiting to be recomputed.", "anchors": ["ipi/utils/depend.py: depend_array.reshape, depend_array.flatten, depend_base.__init__"]}
{"id": "C64", "title": "A malformed reply from one client does not stop the others", "statement": "If one socket client answers with forces for a wrong number of atoms, that client is dropped and its request is run again elsewhere; requests queued by the simulation continue to be served.", "quantifier": "all histories of requests, clients and replies, with a malformed reply at any point", "why_tests_cant": "It concerns every later event after an arbitrary history; tests would have to enumerate schedules with misbehaving clients.", "anchors": ["ipi/interfaces/sockets.py:DriverSocket._recv_forces_bulk", "ipi/interfaces/sockets.py:InterfaceSocket.pool_distribute", "ipi/engine/forcefields.py:ForceField._poll_loop"]}
{"id": "C65", "title": "The reference driver and the server understand each other", "statement": "When the server sends a structure (or a batch) and asks for forces, the Python driver evaluates exactly that structure and the server receives exactly the potential, forces, virial and extra string the driver's potential returned; status enquiries are answered with the driver's true state.", "quantifier": "all structures, atom counts, batch sizes, results, extra strings and all fragmentations of both streams that leave headers whole", "why_tests_cant": "Tests use a loopback connection with one fragmentation and ASCII extras.", "anchors": ["drivers/py/driver.py:run_driver", "ipi/interfaces/sockets.py:Driver.dispatch_send", "ipi/interfaces/sockets.py:Driver._recv_forces_bulk"]}
{"id": "C66", "title": "Committee weights are honoured", "statement": "A committee force field whose members were given weights reports the weighted average of the members' potentials and forces.", "quantifier": "all numbers of members, weights, potentials and forces", "why_tests_cant": "the shipped examples use equal weights, for which a plain mean is indistinguishable", "anchors": ["ipi/engine/forcefields.py:FFCommittee.__init__", "ipi/engine/forcefields.py:FFCommittee.gather"]}
{"id": "C67", "title": "Committee extras of all members are kept", "statement": "The extra data returned by each member of a committee is available in the committee's own extras.", "quantifier": "all member lists and extras", "why_tests_cant": "tests only look at the committee fields added by the code", "anchors": ["ipi/engine/forcefields.py:FFCommittee.gather"]}
{"id": "C68", "title": "Committee data sent by a bundled driver is accepted", "statement": "A single model that returns a committee of potentials, forces and virials through its extras, as the bundled drivers do, is accepted and averaged.", "quantifier": "all numbers of atoms and of committee members", "why_tests_cant": "the driver and the force field are tested separately; the shapes of the messages are never composed", "anchors": ["ipi/engine/forcefields.py:FFCommittee.gather", "ipi/pes/metatomic.py"]}
{"id": "C69", "title": "Built-in force fields are conservative", "statement": "The forces reported by the Lennard-Jones, oscillating and harmonic-crystal force fields are exactly minus the gradient of the energy they report, in every direction, wherever the energy is differentiable.", "quantifier": "all numbers of atoms, parameters, positions, cells", "why_tests_cant": "finite differences check single geometries to finite precision", "anchors": ["ipi/engine/forcefields.py:FFLennardJones.evaluate", "ipi/engine/forcefields.py:FFdmd.evaluate", "ipi/engine/forcefields.py:FFDebye.evaluate", "ipi/utils/distance.py:vector_separation"]}
{"id": "C70", "title": "Contracting an open path keeps its slowest modes", "statement": "Contracting an open path of n beads to n' beads keeps the n' slowest modes of the path (mode k of the short path is sqrt(n'/n) times mode k of the long one).", "quantifier": "all bead numbers n' < n, all open paths", "why_tests_cant": "Every pair of bead numbers; wrong mode choice shows only for n' >= 3.", "anchors": ["ipi/utils/nmtransform.py: mk_o_rs_matrix, nm_rescale.b1tob2"]}
{"id": "C71", "title": "Dynamical mode frequencies are the requested ones", "statement": "In manual, pa-cmd and wmax-cmd modes the dynamical frequency of each internal mode (physical frequency over the square root of the mass factor) is the one requested in the input; in wmax-cmd the first internal mode sits at the target frequency; the centroid factor is always one.", "quantifier": "all bead numbers, positive frequencies, open and closed paths", "why_tests_cant": "All real frequencies and bead numbers.", "anchors": ["ipi/engine/normalmodes.py: NormalModes.get_nmm, get_o_nmm, get_dynwk"]}
{"id": "C72", "title": "The Cartesian ring-polymer propagator keeps the contract of free_qstep", "statement": "free_babstep leaves the centroid position and momentum unchanged (they are moved by qcstep), propagates every internal mode by nmts velocity-Verlet steps at its own frequency, is undone by a step with the opposite time step, and uses the declared dynamical masses.", "quantifier": "all bead numbers >= 2, numbers of inner steps, masses, time steps and states", "why_tests_cant": "All bead numbers and real states.", "anchors": ["ipi/engine/normalmodes.py: NormalModes.free_babstep, free_qstep"]}
{"id": "C73", "title": "Combined force quantities follow every change of their inputs", "statement": "Total forces, potentials, virials, extras and the Suzuki-Chin quantities read from Forces always equal the values recomputed from the current positions, cell, masses, component weights, alpha and omegan2, whatever was read or changed before.", "quantifier": "all sequences of assignments and reads", "why_tests_cant": "Histories of reads and writes are unbounded.", "anchors": ["ipi/engine/forces.py: Forces.bind, get_potssc, get_virssc, extra_combine"]}
{"id": "C74", "title": "Extras of a component keep one entry per bead", "statement": "The gathered extras of a force component hold for every key the values reported by the beads, entry b belonging to bead b; a bead whose set of keys differs from the others is reported.", "quantifier": "any number of beads and any dictionaries of extras", "why_tests_cant": "All dictionaries and bead numbers.", "anchors": ["ipi/engine/forces.py: ForceComponent.extra_gather"]}
{"id": "C75", "title": "Per-component outputs add up to the totals", "statement": "The weighted per-component potentials, forces and virials that can be printed sum over the components to the total potential, force and virial.", "quantifier": "all components, weights and multiple-time-step weights", "why_tests_cant": "All real weights.", "anchors": ["ipi/engine/forces.py: Forces.pots_component, forces_component, virs_component"]}
{"id": "C76", "title": "Suzuki-Chin forces are the gradient of the Suzuki-Chin energy", "statement": "For an even number of beads the fourth-order force reported is minus the gradient of the fourth-order potential: exactly for harmonic force fields, and up to a term vanishing with the finite-difference step for every smooth force field. Odd bead numbers and one-sided differences with contraction are refused.", "quantifier": "all even bead numbers, sets of components, masses, alpha, smooth force fields and displacements", "why_tests_cant": "The finite-difference formula is only checked numerically for single systems; the limit for every smooth force field and every set of contracted components cannot be sampled.", "anchors": ["ipi/engine/forces.py: Forces.forces_4th_order, potssc, fsc_part_1, fsc_part_2, coeffsc_part_1, coeffsc_part_2"]}
{"id": "C77", "title": "Frozen atoms never move", "statement": "The positions of atoms listed in fixatoms do not change during dynamics, for any number of beads and any propagator.", "quantifier": "all states, force fields, bead numbers, nestings, propagators and numbers of steps", "why_tests_cant": "Tests freeze atoms in single configurations with one bead or collapsed beads.", "anchors": ["ipi/engine/motion/dynamics.py: DummyIntegrator.pconstraints, NVEIntegrator.pstep, qcstep", "ipi/engine/normalmodes.py: free_qstep"]}
{"id": "C78", "title": "Constraints add no spurious energy and momentum is conserved", "statement": "Without constraints and with forces that sum to zero the total momentum is conserved by every step. In a state that satisfies the constraints a microcanonical step does not change the accumulated ensemble energy.", "quantifier": "all states, force fields, masses, bead numbers and nestings; all integrators with kicks", "why_tests_cant": "The spurious energy grows linearly with the number of steps and only for systems with a net external force or frozen atoms with the Suzuki-Chin integrator.", "anchors": ["ipi/engine/motion/dynamics.py: DummyIntegrator.pconstraints, NVEIntegrator.step, SCIntegrator.pstep, SCIntegrator.step"]}
{"id": "C79", "title": "Thermostats have the right stationary state", "statement": "The Langevin step has the Maxwell covariance m kT as its only stationary covariance and relaxes every other one towards it with the factor exp(-2 dt/tau); two steps are one step of the summed length; the generalised Langevin step keeps the covariance kb C for every drift matrix when the noise matrix is the root it is meant to be, and root_herm is that root; the mean kinetic energy under velocity rescaling relaxes towards ndof kT/2; every normal mode of the local PILE gets one Langevin step with its own friction 2 lambda omega_k and temperature.", "quantifier": "all averages over the random numbers with the stated moments, all momenta, masses, temperatures, time constants, numbers of beads and of degrees of freedom", "why_tests_cant": "Exact statements about distributions, sampled tests only see them up to noise.", "anchors": ["ipi/engine/thermostats.py: ThermoLangevin.get_T, get_S, step; ThermoGLE.get_S, step; ThermoSVR.step; ThermoPILE_L.bind, get_tauk", "ipi/utils/mathtools.py: root_herm"]}
{"id": "C80", "title": "Rescaling sign and fast-forward flips", "statement": "The sign of the velocity rescaling factor is the sign of the projected Langevin component; the fast-forward flips keep the length of each momentum that the Langevin step gave it and never turn it back; and each thermostat step is defined for every state.", "quantifier": "all draws, momenta and flip types", "why_tests_cant": "The wrong sign occurs for rare draws; atoms exactly at rest are not in the tests.", "anchors": ["ipi/engine/thermostats.py: ThermoSVR.step, ThermoFFL.step, hfunc"]}
{"id": "C81", "title": "Velocity rescaling counts the degrees of freedom it acts on", "statement": "The number of degrees of freedom that the rescaling thermostat of the centroid uses is three per atom minus the frozen ones minus three for a fixed centre of mass, also inside a multiple thermostat and in nm_gle_g.", "quantifier": "all numbers of atoms, beads and frozen degrees of freedom", "why_tests_cant": "All combinations of constraints and thermostats.", "anchors": ["ipi/engine/thermostats.py: Thermostat.bind, ThermoPILE_G.bind, ThermoNMGLEG.bind, MultiThermo.bind", "ipi/engine/motion/dynamics.py: get_fixdof"]}
{"id": "C82", "title": "Noise-compensating Langevin", "statement": "The thermostat for noisy forces accounts for its energy; with no compensation it is the Langevin thermostat with the given time constant; the automatic adjustment moves the compensating time scale in the direction that corrects the temperature.", "quantifier": "all momenta, masses, temperatures, time constants and random numbers", "why_tests_cant": "All reals.", "anchors": ["ipi/engine/thermostats.py: ThermoCL"]}
{"id": "C83", "title": "Closed forms for 3x3 upper-triangular matrices", "statement": "The closed-form exponential of an upper triangular matrix maps every eigenvector to exp(eigenvalue) times itself, and the closed-form eigensystem returns eigenvectors.", "quantifier": "all upper triangular 3x3 matrices", "why_tests_cant": "All reals.", "anchors": ["ipi/utils/mathtools.py: exp_ut3x3, eigensystem_ut3x3"]}
{"id": "C84", "title": "Matrix exponential and special functions", "statement": "The scaling-and-squaring exponential multiplies every eigenvector by (truncated Taylor series of l/2^s)^(2^s), which tends to exp(l) as terms are added; sinch is even with value 1 at zero and equals sinh(x)/x away from it; the inverse normal cumulative is odd about one half.", "quantifier": "all matrix sizes, matrices, eigenvectors, orders", "why_tests_cant": "All reals and matrix sizes.", "anchors": ["ipi/utils/mathtools.py: matrix_exp, _sinch, gaussian_inv"]}
{"id": "C85", "title": "Minimum image vector is the nearest image", "statement": "The minimum-image vector is the shortest of all periodic images for cells with right angles, and for any cell whenever the nearest image is closer than half the smallest distance between faces; the comment in the code claims the whole distance.", "quantifier": "all cells, positions and images", "why_tests_cant": "All real cells, positions and infinitely many images.", "anchors": ["ipi/engine/cell.py: GenericCell.minimum_distance"]}
{"id": "C86", "title": "Frames with a general cell keep their geometry", "statement": "Reading a frame whose cell is given by three arbitrary vectors turns cell and positions together: the new cell is upper triangular with positive diagonal, and every distance between atoms and periodic images is the one in the file.", "quantifier": "all invertible cells, positions and images", "why_tests_cant": "All reals.", "anchors": ["ipi/utils/io/backends/io_xyz.py: process_xyz GENH branch", "ipi/utils/mathtools.py: genh2abc, abc2h"]}
{"id": "C87", "title": "Thermostat momenta follow an exchange", "statement": "When replica exchange changes the temperature of a system, the additional momenta of GLE thermostats are scaled like the bead momenta, by the square root of the ratio of temperatures, so that they stay distributed according to the new temperature.", "quantifier": "all temperatures and exchanges", "why_tests_cant": "All reals; a wrong factor shows only in long-time statistics.", "anchors": ["ipi/engine/smotion/remd.py: ReplicaExchange.step, gle_scale"]}
{"id": "C88", "title": "Replica exchange obeys detailed balance", "statement": "An exchange is accepted exactly when the random number is below the ratio of probabilities, which satisfies detailed balance; with momentum rescaling the kinetic energies of particles and barostats drop out; every pair of systems gets exactly one chance per step.", "quantifier": "all energies, temperatures, numbers of systems", "why_tests_cant": "All reals and system counts.", "anchors": ["ipi/engine/smotion/remd.py: ReplicaExchange.step", "ipi/engine/ensembles.py: Ensemble.get_lpens"]}
{"id": "C89", "title": "The exchange force is the gradient of the exchange potential", "statement": "The bead forces of identical bosons are minus the derivatives of the bosonic potential with respect to every bead coordinate, and add up to zero.", "quantifier": "any number of bosons and beads, all positions and temperatures, all directions", "why_tests_cant": "Finite differences check single configurations; the probabilities enter through two recursions of unbounded length.", "anchors": ["ipi/utils/exchange.py: ExchangePotential.get_vspring_and_fspring"]}
{"id": "C90", "title": "Exchange sampling accounts for all N! permutations", "statement": "Averaged over the names of the bosons, the weight exp(-beta V) is the average over all permutations of the weights of the exchanged ring polymers; the potential itself does not depend on the names of the bosons.", "quantifier": "any number of bosons and beads, all positions and temperatures", "why_tests_cant": "N! permutations and all configurations.", "anchors": ["ipi/utils/exchange.py: ExchangePotential.get_prefix_V"]}
{"id": "C91", "title": "Exchange estimators are consistent with the potential", "statement": "Probabilities of the longest and of no exchange lie in [0,1], the fermionic sign lies in [-1,1] and obeys its recursion, and the thermodynamic kinetic energy is the derivative of the bosonic partition weight with respect to beta, at most that of free particles.", "quantifier": "any number of bosons and beads, all positions and temperatures", "why_tests_cant": "Recursions of unbounded length over real energies.", "anchors": ["ipi/utils/exchange.py: get_distinct_probability, get_longest_probability, get_fermionic_sign, get_kinetic_td"]}
{"id": "C92", "title": "Bosons and distinguishable atoms share one spring energy", "statement": "The spring energy of the normal modes is the sum of the springs of the distinguishable atoms and the exchange potential of the bosons, and the spring force is minus its gradient, whichever atoms are bosons or open paths.", "quantifier": "any number of atoms and beads, any list of bosons and of open paths, all positions", "why_tests_cant": "Energy is assembled by adding and subtracting corrections for every combination of lists.", "anchors": ["ipi/engine/normalmodes.py: NormalModes.get_vspring_and_fspring, resolve_bosons"]}
{"id": "C93", "title": "Every output stream has its own file", "statement": "With the checks made by Simulation.bind, no two output streams (of any outputs, systems and beads) write to the same file.", "quantifier": "all lists of outputs, systems, prefixes, formats and numbers of beads", "why_tests_cant": "Collisions need particular combinations of names, prefixes and bead numbers.", "anchors": ["ipi/engine/simulation.py: Simulation.bind", "ipi/engine/outputs.py: TrajectoryOutput.open_stream"]}
{"id": "C94", "title": "The unit table is coherent", "statement": "A composed unit (force, pressure, velocity, frequency, density, ...) has the conversion factor that follows from the factors of the units it is composed of, to the precision of the table.", "quantifier": "all composed units of the table", "why_tests_cant": "A wrong factor in one family only shows when results in different units are compared.", "anchors": ["ipi/utils/units.py: UnitMap"]}
{"id": "C95", "title": "Units named in a trajectory file are recovered when it is read", "statement": "Positions, velocities, forces and other trajectory quantities, and the cell, written to an xyz file in any accepted unit, come back with their values when the file is read with automatic units.", "quantifier": "all trajectory quantities, all units accepted for their dimension, all values", "why_tests_cant": "All pairs of quantity and unit; tests use angstrom and atomic units.", "anchors": ["ipi/utils/io/__init__.py: print_file", "ipi/utils/io/io_units.py: auto_units, process_units", "ipi/engine/properties.py: Trajectories.traj_dict"]}
{"id": "C96", "title": "Exchanges of atoms sample the distribution of the ensemble", "statement": "For atom swaps and alchemical exchanges, the Boltzmann weight of a configuration times the probability of proposing and accepting an exchange equals the same product for the reverse exchange.", "quantifier": "all systems, temperatures, exchange lists and pairs of atoms", "why_tests_cant": "A wrong acceptance rule gives averages that are slightly wrong only in the limit of many steps.", "anchors": ["ipi/engine/motion/atomswap.py: AtomSwap.step", "ipi/engine/motion/alchemy.py: AlchemyMC.step"]}
{"id": "C97", "title": "Values given by hand are converted from their units", "statement": "In an initialize block, values given in mode manual are multiplied by the conversion factor of the units attribute, for cells, masses, positions, momenta and velocities alike.", "quantifier": "all values, units and systems", "why_tests_cant": "Every kind of value, unit and target has its own path.", "anchors": ["ipi/engine/initializer.py: init_vector", "ipi/engine/initializer.py: Initializer.init_stage1"]}
{"id": "C98", "title": "Velocities initialised from a checkpoint are those of the checkpoint", "statement": "Initialising velocities from a checkpoint file uses the momenta (or velocities) stored in the checkpoint, never its positions.", "quantifier": "all checkpoints and systems", "why_tests_cant": "A value of the wrong kind has the right shape, so runs go on; only the contents differ.", "anchors": ["ipi/engine/initializer.py: init_vector", "ipi/engine/initializer.py: Initializer.init_stage1"]}
{"id": "C99", "title": "Initialisation commands only change what they are about", "statement": "Once the size and the masses of a system are known, a command of an initialize block changes only its own quantity: positions survive masses, labels, cells, momenta, velocities and temperatures; positions from one frame reach all beads and those from another number of beads keep their centroid; new masses keep the kinetic energy of momenta set before; the same values given bead by bead or all at once lead to the same state.", "quantifier": "all sequences of commands, systems and numbers of beads", "why_tests_cant": "The number of sequences and sizes is unbounded.", "anchors": ["ipi/engine/initializer.py: set_vector", "ipi/engine/initializer.py: Initializer.init_stage1", "ipi/utils/nmtransform.py: nm_rescale"]}
{"id": "C100", "title": "Bundled potentials return minus the gradient of their energy", "statement": "For every potential bundled with the python driver that is written out in the repository (harmonic, gas, Morse, double wells, baths, spherical Lennard-Jones, spline), one energy is returned, and the forces are minus the gradient of that energy at every position where it is defined.", "quantifier": "all parameters, positions and numbers of atoms", "why_tests_cant": "A test samples finitely many positions and parameters, and wrong prefactors go unnoticed without finite differences.", "anchors": ["ipi/pes/harmonic.py", "ipi/pes/morse.py", "ipi/pes/doublewell.py", "ipi/pes/doublewell_with_bath.py", "ipi/pes/doubledoublewell.py", "ipi/pes/bath.py", "ipi/pes/spherical_LJ.py", "ipi/pes/spline.py"]}
{"id": "C101", "title": "Bundled potentials honour their parameters", "statement": "The parameters given to a bundled potential determine the potential that is evaluated, in the units documented: the double well has the barrier height and frequency asked for, also with friction; Morse parameters are converted; a driver that asks for two file names gets the two it is given.", "quantifier": "all parameters", "why_tests_cant": "Defaults that replace the given values look plausible.", "anchors": ["ipi/pes/doublewell.py: DoubleWell_driver.__init__", "ipi/pes/doublewell_with_friction.py", "ipi/pes/morse.py: MorseHarmonic_driver.__init__", "ipi/pes/driverdipole.py: check_parameters", "ipi/pes/dummy.py: Dummy_driver.__init__"]}
{"id": "C102", "title": "Batches of structures are evaluated as one by one", "statement": "When a bundled potential evaluates a batch of structures at once, every structure gets the energy and forces it would get alone; results of batched models are cut so that each structure gets its own rows, and are refused when rows are missing; the mean over models lies between the smallest and the largest.", "quantifier": "all batches", "why_tests_cant": "Batches are unbounded in number and size.", "anchors": ["ipi/pes/harmonic.py: compute", "ipi/pes/gas.py: compute", "ipi/pes/tools.py: ModelResults"]}
{"id": "C103", "title": "The approximate line search ends and reports the point it stopped at", "statement": "The backtracking line search ends after at most the given number of iterations; when it accepts a point the energy has dropped by the sufficient fraction of the slope and the reported position, energy and gradient belong to each other; when it runs out of steps it says where the structure was left.", "quantifier": "all energy functions, starts, directions and settings", "why_tests_cant": "Which exit is taken depends on the energy surface; the exits are rarely reached in a test.", "anchors": ["ipi/utils/mintools.py: min_approx"]}
{"id": "C104", "title": "Quasi-Newton updates keep the curvature matrix usable", "statement": "Starting from the identity, every BFGS iteration leaves a symmetric positive definite inverse Hessian, so the search direction goes downhill, and the secant equation holds after every update that is not skipped; the direct, Powell and damped updates keep symmetry and their secant equations, the damped one positive definiteness for any curvature.", "quantifier": "all dimensions, steps, gradients and numbers of iterations", "why_tests_cant": "Positive definiteness after arbitrarily many updates cannot be sampled.", "anchors": ["ipi/utils/mintools.py: BFGS", "ipi/utils/mintools.py: TRM_UPDATE", "ipi/utils/mintools.py: Damped_BFGS", "ipi/utils/mintools.py: Powell", "ipi/engine/motion/geop.py: BFGSOptimizer.step"]}
{"id": "C105", "title": "L-BFGS directions", "statement": "The two loops of L-BFGS give the direction of the BFGS update applied to the stored pairs, the stored lists hold the last pairs oldest first, and the next search direction goes downhill; a direction that goes uphill is replaced by steepest descent.", "quantifier": "all dimensions, history lengths and histories", "why_tests_cant": "Wrong pairs still lead to a minimum, only slowly; degenerate pairs are rare.", "anchors": ["ipi/utils/mintools.py: L_BFGS", "ipi/engine/motion/geop.py: LBFGSOptimizer.step"]}
{"id": "C106", "title": "Trust radius steps", "statement": "The trust radius step minimises the quadratic model within the trust radius, the radius stays positive and within the largest allowed step, and a step is accepted only if the energy goes down.", "quantifier": "all dimensions, forces, Hessians with a complete eigensystem, and radii", "why_tests_cant": "Optimality is a statement about all other steps.", "anchors": ["ipi/utils/mintools.py: min_trm", "ipi/utils/mintools.py: BFGSTRM", "ipi/utils/mintools.py: TRM_UPDATE"]}
{"id": "C107", "title": "FIRE and mode following steps", "statement": "FIRE keeps its time step and mixing within their limits, stops and steps back when moving uphill, and never moves further than the maximum step; the mode following step climbs the lowest mode and descends all others, and is limited to the maximum step.", "quantifier": "all states, forces and spectra", "why_tests_cant": "Limits are only exceeded in unusual states.", "anchors": ["ipi/utils/mintools.py: FIRE", "ipi/utils/mintools.py: nichols"]}
{"id": "C108", "title": "Bracketing a minimum", "statement": "Whatever the energy function, start and step (not zero), when the bracketing returns, its three points are in order, the middle one is lower than or equal to the outer ones and not above the start, and energy and derivative returned with it are those of the middle point.", "quantifier": "all energy functions, starts and steps, any number of expansions", "why_tests_cant": "The bracket expands an unbounded number of times along branches chosen by the function.", "anchors": ["ipi/utils/mintools.py: bracket"]}
{"id": "C109", "title": "Steepest descent line minimisation", "statement": "The line minimisation used by steepest descent and conjugate gradients leaves the structure at the best point found, so the energy never rises over a step; the derivative given for the start is that of the energy along the line; secant steps are used when Brent's rule accepts them and bisection otherwise; trial points stay in the bracket.", "quantifier": "all energy functions, starts, settings and numbers of iterations", "why_tests_cant": "Minimisers with such faults still converge on smooth test cases, only slower.", "anchors": ["ipi/utils/mintools.py: min_brent", "ipi/engine/motion/geop.py: SDOptimizer.step", "ipi/engine/motion/geop.py: CGOptimizer.step", "ipi/engine/motion/geop.py: LineMapper.__call__"]}
{"id": "C110", "title": "Projection of momenta onto constraints", "statement": "In constrained dynamics, after ConstraintSolver.proj_cotangent the velocities change none of the constraints that share no atoms: for every condition, Dg . (p/m) = 0 (for a bond, the velocities of its atoms do not separate them). The projection is orthogonal: it never adds kinetic energy, the energy it takes away is that of the removed momenta, momenta already along the constraints and momenta of unconstrained atoms are unchanged. Bonds and angles leave total momentum and angular momentum unchanged. (False for constraints given separately that share an atom: the last one projected undoes the earlier ones; they have to be in one ConstraintList.)", "quantifier": "for all numbers of atoms, masses > 0, sets of disjoint constraints with independent conditions, positions, momenta, and every linear solver that solves symmetric positive definite systems", "why_tests_cant": "tests see a few molecules; orthogonality and conservation laws are identities over all positions, momenta and numbers of conditions", "anchors": ["ipi/engine/motion/constrained_dynamics.py:264-285", "ipi/utils/constrtools.py:135-141"]}
{"id": "C111", "title": "Projection of positions onto constraints", "statement": "After ConstraintSolver.proj_manifold every constraint is within the tolerance, positions of other atoms are as before, momenta change by mass times displacement over the time step, the centre of mass is not moved by bonds and angles, and linear (Eckart) conditions are met exactly after one correction. Failure to converge is reported. (False of the code: the loop variable never equals maxit, so that the warning can never be printed and unconverged positions are used silently; with maxit = 0 the loop variable is undefined.)", "quantifier": "for all constraints, positions, momenta, tolerances, norms, solvers and maximal numbers of iterations", "why_tests_cant": "the silent failure needs positions from which the iteration does not converge; a test that converges never reaches the dead branch", "anchors": ["ipi/engine/motion/constrained_dynamics.py:287-336"]}
{"id": "C112", "title": "Constraint functions and their Jacobians", "statement": "RigidBondConstraint.g is the squared distance of the two atoms minus the squared target, AngleConstraint.g the cosine of the angle at the first atom minus the cosine of the target, both at the atoms named in the input whatever their order and repetition; without given values the first frame meets the bond constraints. Dg is the exact Jacobian of g for bonds, angles, Eckart conditions and lists of these. The rows for bonds and angles exert no net force or torque; momenta along Eckart conditions carry no momentum and no angular momentum about the reference.", "quantifier": "for all lists of pairs, triples or atoms, all nested lists of constraints, all positions (angles: distinct places), reference positions and masses", "why_tests_cant": "a Jacobian is compared with finite differences at a few points only; index compaction errors appear only for particular orders of atoms", "anchors": ["ipi/utils/constrtools.py:45-67", "ipi/utils/constrtools.py:204-262", "ipi/utils/constrtools.py:265-327", "ipi/utils/constrtools.py:330-445", "ipi/utils/constrtools.py:448-538"]}
{"id": "C113", "title": "Steps of constrained dynamics", "statement": "A step of constrained NVE or NVT dynamics, with any levels of multiple time stepping, substeps of the geodesic flow and of the thermostat and both splittings, is defined (maxit > 0), ends with the positions known to the constraints equal to those of the beads and, as long as every position projection converged, with all constraints within tolerance and all momenta along them. In the thermostat step kinetic energy plus eens changes only by what the thermostat does, and the projection never lowers eens.", "quantifier": "for all forces, time steps, levels, substeps, thermostats, initial momenta and sets of disjoint constraints whose conditions are independent wherever met within tolerance", "why_tests_cant": "tests run a handful of steps of one molecule; the invariant is over all compositions of substeps", "anchors": ["ipi/engine/motion/constrained_dynamics.py:392-544"]}
{"id": "C114", "title": "Construction of constraints", "statement": "EckartConstraint refuses exactly lists with repeated atoms. (False of the code: it compares the given order with the sorted one, so that it refuses unsorted lists without repetition, and by broadcasting accepts one atom repeated; it accepts exactly the increasing lists and lists of a single value.) The number of fixed degrees of freedom is that of the parent class plus the number of conditions of all constraints, and a list counts those of its members, in order.", "quantifier": "for all lists of indices and all lists of constraints", "why_tests_cant": "the check is right on the usual sorted input", "anchors": ["ipi/utils/constrtools.py:337-358", "ipi/utils/constrtools.py:448-538", "ipi/engine/motion/constrained_dynamics.py:168-175"]}
{"id": "C115", "title": "The dynamical matrix by finite differences is the mass-weighted Hessian, also across restarts", "statement": "DynMatrixMover in mode fd, run step by step until it finishes, leaves in dynmatrix (after transform) the Hessian divided by the square roots of the masses for every quadratic potential and any displacement different from zero, and for a smooth potential a matrix which converges to it when the displacement goes to zero; rows and columns of fixed atoms do not change the block of the atoms that move; stopping after any number of steps and starting again with the arrays of the checkpoint gives the same as running without stopping. The entries of _full.hess between a fixed and a free coordinate are those that were computed.", "quantifier": "all numbers of atoms, positions, masses, quadratic forces, displacements, sets of fixed atoms, restart points", "why_tests_cant": "Regression tests compare one molecule's numbers with stored ones; they do not cover all Hessians and restart points.", "anchors": ["ipi/engine/motion/phonons.py:223-300"]}
{"id": "C116", "title": "Refinement of the dynamical matrix along normal modes", "statement": "In modes nmfd and enmfd each row holds the projection on the modes of the change of the mass-weighted force under a displacement along one mode; with the orthonormal eigenvectors of the reference matrix this is the mass-weighted Hessian in the basis of the modes, and rotated back it is the dynamical matrix. In enmfd the displacement changes the energy of the mode by the requested amount, limited to a hundred times the atomic displacement. The matrix that comes out of a run is that refined one.", "quantifier": "all reference matrices, eigenvectors, quadratic forces, energies and displacements", "why_tests_cant": "A test started from a good reference matrix cannot tell whether the forces had any effect on the output.", "anchors": ["ipi/engine/motion/phonons.py:303-420"]}
{"id": "C117", "title": "Acoustic sum rules remove exactly the rigid motions", "statement": "With asr crystal the matrix printed and returned gives zero for the three rigid translations (mass weighted), and with poly for the translations and the rigid rotations about the centre of mass when the moments of inertia are distinct and none of the three axes is a line of atoms; it stays symmetric, acts as before on vibrations orthogonal to the rigid motions, is not changed when it already obeys the rule, and the rule applied twice is the rule applied once.", "quantifier": "all symmetric matrices, masses and positions under those conditions", "why_tests_cant": "Molecules with equal moments of inertia, where numpy's eig gives axes that are not orthogonal, are a set of measure zero that tests have to look for.", "anchors": ["ipi/engine/motion/phonons.py:97-220", "ipi/utils/hesstools.py:51-120"]}
{"id": "C118", "title": "The printed dynamical matrix, Hessian, eigenvalues and modes fit together", "statement": "The eigenvalues and eigenvectors printed belong to the symmetrised matrix that is printed, the printed modes are the eigenvectors divided by the square roots of the masses and normalised, the Hessian is the dynamical matrix times the square roots of the masses, and output_shift adds the same amount to every eigenvalue.", "quantifier": "all matrices, masses, sets of fixed atoms and shifts", "why_tests_cant": "Tests use a shift of zero.", "anchors": ["ipi/engine/motion/phonons.py:84-222"]}
{"id": "C119", "title": "Cleaning a Hessian removes the modes of zero frequency and no others", "statement": "clean_hessian returns the eigenvalues and eigenvectors of the matrix without those of frequency below 0.01 inverse centimetres, in the same order, each eigenvector with its own eigenvalue.", "quantifier": "all lists of eigenvalues in increasing order", "why_tests_cant": "A soft imaginary mode between -4 and -0.01 inverse centimetres is needed to see the difference.", "anchors": ["ipi/utils/hesstools.py:122-175"]}
{"id": "C120", "title": "An interrupted Hessian calculation goes on from its temporary files and ends with the same result", "statement": "get_hessian, called again after having been stopped at any point and any number of times, returns the Hessian that an uninterrupted call returns (for potentials quadratic in each bead exactly the second derivatives, zero for fixed coordinates), computes no row again, and leaves no temporary file; with friction the derivative of the friction is likewise complete.", "quantifier": "all numbers of coordinates, fixed coordinates, potentials, and sequences of interruptions between or during operations on files", "why_tests_cant": "Interruptions between two particular file operations are not scheduled by tests.", "anchors": ["ipi/utils/hesstools.py:178-301"]}
{"id": "C121", "title": "The substeps of the isotropic barostat are exact flows", "statement": "qcstep of BaroBZP moves centroid, centroid momenta and cell along the solution of dq/dt = p/m + v q, dp/dt = -v p, dh/dt = v h for the constant v = p_cell/m_cell; two steps of t and u in a row are one step of t+u. pstep together with the kick of the atoms is likewise additive in time, so it is exact for constant positions. BaroSCBZP.pstep is BaroBZP.pstep with the scaled forces and virials. The step is defined for a barostat at rest.", "quantifier": "all systems, numbers of beads and of levels of forces, states, time steps", "why_tests_cant": "Tests compare short trajectories at one time step; a term of third order in the time step is invisible there, and the momentum of the barostat is never exactly zero.", "anchors": ["ipi/engine/barostats.py:573-623", "ipi/engine/barostats.py:628-842"]}
{"id": "C122", "title": "A constant pressure step is undone by reversing momenta", "statement": "For the nve part of the step of NPTIntegrator and SCNPTIntegrator with an isotropic barostat, and for the step with both thermostats left idle: changing the sign of all momenta and of the barostat's and doing the step again gives the starting state with the sign of the momenta changed. This also holds with a bias and with fixed atoms; fixed atoms stay where they are.", "quantifier": "all systems, factors of multiple time stepping, splittings, states", "why_tests_cant": "A bias or fixed atoms together with a barostat are not tested, and irreversibility of third order in the time step needs long runs to be seen.", "anchors": ["ipi/engine/barostats.py:573-623", "ipi/engine/motion/dynamics.py:613-676", "ipi/engine/motion/dynamics.py:759-836"]}
{"id": "C123", "title": "The conserved quantity of the isotropic barostat is conserved to first order", "statement": "With forces and virials that are the derivatives of one potential with respect to positions and a homogeneous deformation of the cell, the rates of change of the energy plus the barostat's kinetic, potential and Jacobian terms under the substeps of all levels and the drift add to zero.", "quantifier": "all potentials, numbers of beads and of levels of forces, states with moving barostat", "why_tests_cant": "Conservation is checked in a run for one potential up to a drift.", "anchors": ["ipi/engine/barostats.py:299-328", "ipi/engine/barostats.py:382-393", "ipi/engine/barostats.py:530-623"]}
{"id": "C124", "title": "The conserved quantities of the anisotropic barostats are conserved to first order", "statement": "The same as for the isotropic barostat, for BaroRGB (any external stress) and BaroMTK, any mask of fixed entries.", "quantifier": "all potentials, numbers of beads and levels, cells, cell momenta, masks, external stresses", "why_tests_cant": "The missing terms are small for long runs of dense systems and the drift is put down to the time step.", "anchors": ["ipi/engine/barostats.py:299-328", "ipi/engine/barostats.py:844-1433"]}
{"id": "C125", "title": "Fixed entries of the cell and the volume constraint hold", "statement": "mask_from_fix gives zero exactly at the entries named and refuses other names; after every pstep the cell momentum is zero at the entries named, and traceless under the volume constraint, with the kinetic energy removed added to the thermostat's heat; whenever the cell moves its momentum obeys the constraints, whatever the thermostats did; the named entries of the cell do not change.", "quantifier": "all lists of names, states, schedules of multiple time stepping, both splittings, any action of the thermostats on the cell momenta", "why_tests_cant": "The violation depends on the splitting and on the parity of the number of substeps.", "anchors": ["ipi/engine/barostats.py:34-60", "ipi/engine/barostats.py:1066-1139", "ipi/engine/barostats.py:1350-1430", "ipi/engine/motion/dynamics.py:441-560"]}
{"id": "C126", "title": "The propagator of an anisotropic cell is right for every cell momentum", "statement": "qcstep of BaroRGB and BaroMTK moves centroid, centroid momenta and cell at the rates p/m + v q, -v p and v h, for every upper triangular v; a step of no time changes nothing.", "quantifier": "all cell momenta, including those with a zero diagonal and with equal diagonal entries", "why_tests_cant": "The diagonal is zero or repeated exactly only with fixed entries.", "anchors": ["ipi/engine/barostats.py:1106-1139", "ipi/engine/barostats.py:1396-1430", "ipi/utils/mathtools.py:431-456"]}
{"id": "C127", "title": "Neighbour table of the kinetic Monte Carlo is the fcc lattice", "statement": "The rows of neigh built by AlKMC.__init__ are the twelve distinct first neighbours of each site on the periodic fcc lattice, without padding; being a neighbour is symmetric and no site neighbours itself.", "quantifier": "every number of cells per side, every lattice constant", "why_tests_cant": "Tests use one or two sizes; small cells wrap onto themselves.", "anchors": ["ipi/engine/motion/al6xxx_kmc.py:125-167"]}
{"id": "C128", "title": "Site and atom indices stay consistent and runs go on", "statement": "From any permutation of the sites, after any number of steps with any random numbers: idx and ridx are inverse permutations, the letter on the site of atom i is that of atom i, the composition is unchanged, neither of the two 'something got screwed' IndexErrors occurs, time does not go back, and with a vacancy and an atom on the lattice another step is possible; the events are exactly the pairs of a vacancy and a neighbouring atom, each once.", "quantifier": "all lattices of at least three cells per side, compositions, initial permutations, energies, runs", "why_tests_cant": "A run visits a tiny part of the state space; a broken index shows as an atom changing kind much later.", "anchors": ["ipi/engine/motion/al6xxx_kmc.py:236-285", "ipi/engine/motion/al6xxx_kmc.py:502-678"]}
{"id": "C129", "title": "The rates obey detailed balance", "statement": "For any two states the total rate from one to the other times the Boltzmann weight of the first equals that of the reverse, and the Boltzmann weights are stationary; the energy of a state depends on its string only.", "quantifier": "all states, energies, barriers, prefactors, temperatures", "why_tests_cant": "Detailed balance is a statement about pairs of states that a run visits in one direction.", "anchors": ["ipi/engine/motion/al6xxx_kmc.py:443-468", "ipi/engine/motion/al6xxx_kmc.py:519-629"]}
{"id": "C130", "title": "Selection of events and residence times follow the rates", "statement": "Event i is selected exactly for the random numbers in an interval of length rate_i over the total rate; some event is always selected if there is one; the residence time is not negative and at most t exactly for random numbers up to 1 - exp(-k t).", "quantifier": "all lists of positive rates, all random numbers in [0,1)", "why_tests_cant": "Frequencies are only statistical evidence, edge cases have probability zero.", "anchors": ["ipi/engine/motion/al6xxx_kmc.py:616-636"]}
{"id": "C131", "title": "Threads and cache: every event gets the energy of its own state", "statement": "In every interleaving of the main thread and the optimisation threads: no evaluator is used by two threads or loaded while in use, the step terminates and does not get stuck, when it is over each event has the energy and positions of its target state, the cache has right entries only and not more than max_cache_len, and there is no KeyError.", "quantifier": "all numbers of evaluators, cache sizes, initial caches, event lists, interleavings", "why_tests_cant": "Interleavings are timing dependent; eviction takes a full cache of 1000 entries.", "anchors": ["ipi/engine/motion/al6xxx_kmc.py:321-357", "ipi/engine/motion/al6xxx_kmc.py:425-441", "ipi/engine/motion/al6xxx_kmc.py:519-607"]}
{"id": "C132", "title": "Atoms keep their identity when positions are updated", "statement": "After a step every atom is at a periodic image of the relaxed position of an atom of its kind on its new site, within half a cell of where it was; unique_idx is one-to-one, keeps the kinds, and orders the atoms of a kind by site; unique_idx_match sends each atom to the one on its site and the jumping atom to the vacancy's site.", "quantifier": "all states and swaps of a vacancy with an atom, all relaxed positions", "why_tests_cant": "Relabelled identical atoms give the same energies.", "anchors": ["ipi/engine/motion/al6xxx_kmc.py:443-500", "ipi/engine/motion/al6xxx_kmc.py:657-678"]}
{"id": "C133", "title": "The handler of XML events builds the tree of the document", "statement": "For every document tree the calls of startElement, characters and endElement leave the handler with a root whose only child has the name, the attributes and the children of the document in order, each followed by the text of the element without that of its children.", "quantifier": "all document trees, all states of the stack of open elements", "why_tests_cant": "Nesting depth and order of texts and children are unbounded.", "anchors": ["ipi/utils/io/inputs/io_xml.py:60-168"]}
{"id": "C134", "title": "Printed XML is read back", "statement": "A document whose names are XML names, whose texts are free of < and & and whose attributes are free of < & ' newline and tab is read by xml_parse_string as a root with exactly that document, whatever blanks stand before and after it.", "quantifier": "all such documents and blanks", "why_tests_cant": "Trees and texts are unbounded.", "anchors": ["ipi/utils/io/inputs/io_xml.py:170-197"]}
{"id": "C135", "title": "A checkpoint that is written is read back", "statement": "For every input class with consistent tables and defaults, and every object with values that can be written: the text of Input.write is a document with one element, Input.parse from the initial state accepts it, the object has the same written values at all levels (attributes, fields, dynamic fields in order, arrays with their shapes), and it is written as the same text again. Values equal to the default are left out and come back. False for classes with an InputValue among the attributes (InputRandom.n_threads).", "quantifier": "all classes (tables nested to any depth), all objects, names and padding", "why_tests_cant": "Tests restart from a few fixed inputs; a value that is only lost at its default or beside another field is missed.", "anchors": ["ipi/utils/inputvalue.py:136-390", "ipi/utils/inputvalue.py:984-1160", "ipi/utils/inputvalue.py:1225-1319", "ipi/inputs/prng.py:35-47"]}
{"id": "C136", "title": "Which inputs are accepted", "statement": "Input.parse succeeds exactly for nodes whose attributes and tags are in the tables, that have all attributes and fields without a default, and whose texts are readable with the types of their classes, at all levels; this does not depend on what the object held before.", "quantifier": "all classes, nodes and prior states", "why_tests_cant": "Refusals are tested one at a time, acceptance must hold for all combinations.", "anchors": ["ipi/utils/inputvalue.py:306-390", "ipi/utils/inputvalue.py:1150-1160", "ipi/utils/inputvalue.py:1296-1319"]}
{"id": "C137", "title": "The written text decides the values", "statement": "Two objects of a class are written as the same text exactly if they have the same written values at all levels.", "quantifier": "all classes and pairs of objects that can be written", "why_tests_cant": "A collision between two objects is not found by examples.", "anchors": ["ipi/utils/inputvalue.py:248-304"]}
{"id": "C138", "title": "Values that can be written", "statement": "Integers, booleans, strings and tuples of integers are read back after they are written, also with the indentation of the end tag behind them; so are floats whenever float() inverts repr(). An array is read back element by element from its text with line breaks every five elements.", "quantifier": "all values, lengths and indentations", "why_tests_cant": "Line breaks depend on the number of elements.", "anchors": ["ipi/utils/inputvalue.py:1263-1294", "ipi/utils/io/inputs/io_xml.py:289-632"]}
{"id": "C139", "title": "Of a repeated tag the last one counts", "statement": "If a tag is given twice the object is as if only the second were given. False: the units of a field that the second one leaves out stay those of the first, and the default is taken in these units.", "quantifier": "all documents", "why_tests_cant": "Repeated tags are not tested.", "anchors": ["ipi/utils/inputvalue.py:194-203", "ipi/utils/inputvalue.py:1096-1115"]}
{"id": "C140", "title": "Strings come back from a checkpoint unchanged", "statement": "Every string, and every array of strings, that is stored comes back after write and parse up to blanks at its ends. False: there is no escaping, so strings with < or & make the checkpoint unreadable or are changed, and arrays split strings at commas and lose empty strings at the end.", "quantifier": "all strings", "why_tests_cant": "Special characters are rarely tried.", "anchors": ["ipi/utils/inputvalue.py:248-304", "ipi/utils/io/inputs/io_xml.py:357-397"]}
{"id": "C141", "title": "xml_write is read back up to the layout, and the layout does not matter", "statement": "A tree that was read is written by xml_write as a text that is read as the same tree up to blanks around the texts, and trees that agree in this sense are parsed as the same object by every class.", "quantifier": "all trees with plain texts, all classes and states", "why_tests_cant": "The layout depends on the nesting and on which elements have texts.", "anchors": ["ipi/utils/io/inputs/io_xml.py:200-252"]}
{"id": "C142", "title": "A template stands for its system", "statement": "The text that InputRaw keeps for a template with one tag, when it is read by the fetch of InputSysTemplate without labels, gives the object that reading the tag itself gives. False if the template contains an entity such as &lt;.", "quantifier": "all templates with plain texts", "why_tests_cant": "Unbounded trees; entities are rarely tried.", "anchors": ["ipi/utils/inputvalue.py:1163-1175", "ipi/inputs/system.py:69-103"]}
{"id": "C143", "title": "Labels of a template are substituted longest first", "statement": "A label that continues another label is substituted before it. In general false: the order is alphabetical and not by length, so a label that ends with another one is destroyed, and inserted values are searched for the labels that follow.", "quantifier": "all labels and values", "why_tests_cant": "Depends on the choice of labels.", "anchors": ["ipi/inputs/system.py:84-93"]}
{"id": "C144", "title": "Editing of XML trees", "statement": "After xml_edit has removed a name without a full path no node of this name is left at any depth, the count is zero exactly if there was none, and then nothing has changed; with a full path the number of edits is the number of nodes at its end.", "quantifier": "all trees, names, paths and modes", "why_tests_cant": "The list is edited in place during the loop; errors need several matches at one level.", "anchors": ["ipi/utils/io/inputs/io_xml.py:255-286"]}
{"id": "C145", "title": "Estimators add up over the atoms", "statement": "kinetic_cv, kinetic_td, kinetic_tdsc, the Takahashi-Imada term and the kinetic energy tensor of all atoms are the sums over any list of the labels that occur, and over the indices.", "quantifier": "all systems without bosons, all lists of labels", "why_tests_cant": "Every estimator has its own selection loop; a fault in one shows only for mixed labels and indices.", "anchors": ["ipi/engine/properties.py:1181-1237", "ipi/engine/properties.py:1322-1394", "ipi/engine/properties.py:1396-1435", "ipi/engine/properties.py:1710-1749", "ipi/engine/properties.py:2849-2896"]}
{"id": "C146", "title": "Tensors, trajectories and kinetic energy agree", "statement": "The trace of kinetic_tens is kinetic_cv for every selection; the columns kinetic_cv and kinetic_od of the trajectories are the components of the tensor of each atom and add up to its kinetic energy; the trace of the kinetic stress follows from the kinetic energy; the radii of gyration of the property and of the trajectory agree.", "quantifier": "all systems and selections", "why_tests_cant": "Five separate loops over atoms, beads and components compute the same numbers.", "anchors": ["ipi/engine/properties.py:1710-1749", "ipi/engine/properties.py:1769-1881", "ipi/engine/properties.py:1912-1939", "ipi/engine/properties.py:3164-3216"]}
{"id": "C147", "title": "Centroid virial kinetic energy", "statement": "kinetic_cv does not change when whole ring polymers are moved or the same force is added to every bead; for forces of a convex potential it is at least the classical 3/2 N kT; together with the virial it has the value of the virial theorem.", "quantifier": "all positions, forces, bead numbers", "why_tests_cant": "Inequalities and invariances for all configurations.", "anchors": ["ipi/engine/properties.py:1181-1237", "ipi/engine/properties.py:1304-1320"]}
{"id": "C148", "title": "Thermodynamic kinetic energy is the derivative of the action", "statement": "kinetic_td plus potential is the derivative with respect to the inverse temperature of the logarithm of the path integral weight, and kinetic_td of an atom the derivative with respect to its mass; it is the free energy 3/2 N P kT minus the spring energy of the normal modes. False with open paths: the bond that closes the ring is counted.", "quantifier": "all systems and temperatures", "why_tests_cant": "A derivative of the sampled weight; a wrong factor still gives plausible energies.", "anchors": ["ipi/engine/properties.py:1396-1435", "ipi/engine/properties.py:1460-1497"]}
{"id": "C149", "title": "Suzuki-Chin energies are derivatives of the fourth-order action", "statement": "kinetic_prsc plus potential_tdsc is the derivative of the fourth-order action with respect to the inverse temperature, and kinetic_prsc that with respect to a scaling of all masses.", "quantifier": "all systems, temperatures and alpha", "why_tests_cant": "The temperature dependence of omegan enters twice.", "anchors": ["ipi/engine/properties.py:1239-1249", "ipi/engine/properties.py:1499-1521"]}
{"id": "C150", "title": "Scaled-coordinates energy", "statement": "The loop over displacements ends; for displacements going to zero scaledcoords tends to kinetic_cv plus potential, and it is exact for every displacement when the potential is harmonic. The fourth-order sc_scaledcoords should tend to kinetic_tdsc plus potential_tdsc: false, it misses twice the average of the |f|^2 terms because omegan2 is not scaled.", "quantifier": "all potentials, systems and displacements", "why_tests_cant": "A limit; the defect is a small systematic error.", "anchors": ["ipi/engine/properties.py:2053-2206"]}
{"id": "C151", "title": "Temperatures of a system at temperature T read T", "statement": "When every normal mode has its share of the kinetic energy, with fixed centre of mass, constant centroid or fixed atoms taken out, the temperature of every selection of atoms, of every bead and of every mode is the temperature of the ensemble. False for the modes with constant centroid and fixed atoms together; a motion class without ensemble type that fixes atoms gives an exception.", "quantifier": "all selections, beads, modes and constraints", "why_tests_cant": "The combinations of constraints and selections; a wrong count of degrees of freedom looks like noise.", "anchors": ["ipi/engine/properties.py:1085-1179", "ipi/engine/properties.py:1585-1699"]}
{"id": "C152", "title": "Thermodynamic isotope ratios", "statement": "isotope_zetatd of an atom is the ratio of the weights of the path with the mass of the isotope and with its own mass, without the factor of the centroid; the fourth and fifth value of isotope_zetatd_4th are those of the Takahashi-Imada and of the Suzuki-Chin action; equal masses give 0, 0, 1.", "quantifier": "all systems, atoms and mass ratios", "why_tests_cant": "Ratios of exponentials with prefactors that only matter for absolute values.", "anchors": ["ipi/engine/properties.py:2425-2498", "ipi/engine/properties.py:2572-2691", "ipi/engine/properties.py:3218-3270"]}
{"id": "C153", "title": "Scaled-coordinates isotope ratios", "statement": "isotope_zetasc is the ratio of the weights at the scaled positions with the new mass and at the positions with the old mass, up to the Jacobian; equal masses give 0, 0, 1. For isotope_zetasc_4th this is false when there are other atoms: the change of the forces on them is left out; with this factor written out it holds.", "quantifier": "all systems, atoms and mass ratios", "why_tests_cant": "A small systematic error for interacting atoms only.", "anchors": ["ipi/engine/properties.py:2500-2570", "ipi/engine/properties.py:2693-2804", "ipi/engine/properties.py:3272-3327"]}
{"id": "C154", "title": "Displaced path estimator", "statement": "displacedpath of an atom is the ratio of the weight of the path opened by the displacement and the closed path; the centroid does not move; no displacement gives 1.", "quantifier": "all systems, displacements, bead numbers", "why_tests_cant": "An identity between two sums over bonds.", "anchors": ["ipi/engine/properties.py:1941-2005"]}
{"id": "C155", "title": "Estimators do not depend on earlier estimators", "statement": "The estimators that work on a copy of the system see the present cell and positions. False: displacedpath and the isotope estimators never update the cell of the copy, which then is the cell of the start or of the last scaled-coordinates estimator; the operator estimator leaves the odd beads as they were. True without cell changes, and for forces bead by bead.", "quantifier": "all sequences of moves, cell changes and estimators", "why_tests_cant": "Needs variable cells and particular orders of the properties.", "anchors": ["ipi/engine/properties.py:966-995", "ipi/engine/properties.py:1951-2051", "ipi/engine/properties.py:2208-2315"]}
{"id": "C156", "title": "Logarithmic sums of the isotope estimators", "statement": "The fifth value of isotope_scfep and isotope_tdfep is the logarithm of the sum of the weights; the sixth and seventh are logarithm and sign of the weighted kinetic energy when all kinetic energies are positive. In general false: a negative kinetic energy that dominates gives a wrong sum.", "quantifier": "all lists of atoms", "why_tests_cant": "Negative kinetic energies are rare.", "anchors": ["ipi/engine/properties.py:2293-2307", "ipi/utils/mathtools.py:35-57"]}
{"id": "C157", "title": "Fourth-order weights", "statement": "chin_weight is the exponential of the Suzuki-Chin part of the potential with alpha zero, an exception for an odd number of beads; ti_weight is the exponential of minus ti_pot over kT.", "quantifier": "all systems", "why_tests_cant": "Two formulas for one quantity.", "anchors": ["ipi/engine/properties.py:2806-2896", "ipi/engine/forces.py:1573-1584"]}
{"id": "C158", "title": "Kinetic energy of bosons", "statement": "A selection with some but not all bosons is refused; for all atoms the bosons contribute their common energy and the others one by one. The index -1 should select nothing; it returns the energy of the bosons.", "quantifier": "all systems with bosons and selections", "why_tests_cant": "Combinations of labels and species.", "anchors": ["ipi/engine/properties.py:1396-1458"]}
{"id": "C159", "title": "Cavity photons with point charges", "statement": "A call of a ffcavphsocket with charges returns the potential of the client plus the energy of two oscillators displaced by the dipole of the charges (loose and dense forms), and forces on atoms and photons that are minus the gradient of that sum; the photons never lower the energy; the cavity exerts no net force on a neutral system.", "quantifier": "all positions, charges, couplings, nonzero frequencies, both representations, all clients whose forces are the gradient of their potential", "why_tests_cant": "Gradient identity at every point, index slices of two representations.", "anchors": ["ipi/engine/forcefields.py:1875-2081", "ipi/engine/forcefields.py:2249-2487"]}
{"id": "C160", "title": "Cavity photons with a dipole surface", "statement": "With a dipole and its 9N derivatives from the client, ordered by atom, component of the dipole and coordinate, the forces are minus the gradient of the client potential plus the displaced oscillators.", "quantifier": "all dipole surfaces with the derivatives sent, all positions", "why_tests_cant": "Needs every dipole surface; a transposed derivative is invisible for symmetric cases.", "anchors": ["ipi/engine/forcefields.py:2034-2081", "ipi/engine/forcefields.py:2397-2421"]}
{"id": "C161", "title": "Energy offset of a cavity forcefield", "statement": "The energy returned is that of the client less the offset (plus the photons). False: the interface subtracts the offset, and queue subtracts it again.", "quantifier": "all offsets", "why_tests_cant": "Constant shifts do not change trajectories.", "anchors": ["ipi/engine/forcefields.py:2468", "ipi/interfaces/sockets.py:551", "ipi/interfaces/sockets.py:1721"]}
{"id": "C162", "title": "Replies without a dipole", "statement": "If the dipole surface is requested and the reply has no valid dipole or derivative, the run is stopped with a message; otherwise a result is returned. False for missing entries: KeyError.", "quantifier": "all replies", "why_tests_cant": "All shapes of a reply.", "anchors": ["ipi/engine/forcefields.py:2397-2412"]}
{"id": "C163", "title": "Photons counted once", "statement": "If one of several cavity forcefields evaluates the photons and the others do not, the sum of their energies has the photon energy once and the photons feel the force of one.", "quantifier": "all numbers and orders of forcefields", "why_tests_cant": "Any number of drivers.", "anchors": ["ipi/engine/forcefields.py:2387-2466"]}
{"id": "C164", "title": "One cavity forcefield, several threads", "statement": "The result of a request is computed with the photons of that request, and no call raises. True for one thread in any interleaving with the polling thread (with at most one request queued at a time); false for two systems stepped in threads.", "quantifier": "all interleavings", "why_tests_cant": "Races depend on scheduling.", "anchors": ["ipi/engine/forcefields.py:1958", "ipi/engine/forcefields.py:2306-2371", "ipi/engine/simulation.py:433-447"]}
{"id": "C165", "title": "Extras of several baths", "statement": "combine_bath_extras keeps, for each key, the value of bath i at place i (as an array when all have one shape), texts under raw in order, no key that no bath has, and always raw.", "quantifier": "all lists of dictionaries", "why_tests_cant": "The code only makes one bath; several are reachable by direct calls.", "anchors": ["ipi/engine/forcefields.py:2196-2247"]}
{"id": "C166", "title": "Instanton fixed atoms: reduction and extension", "statement": "For the arrays of types 1 and 2 the active part of an array holds the entries of the free coordinates in order, the extension of an active array has those entries at the free coordinates and zero elsewhere, and reducing the extension gives the active array back.", "quantifier": "all numbers of atoms and beads, all lists of fixed coordinates, all arrays", "why_tests_cant": "The maps run over all masks and shapes.", "anchors": ["ipi/utils/instools.py:308-500"]}
{"id": "C167", "title": "Instanton fixed atoms: every stored array can be reduced and extended", "statement": "Each array the optimisers store can be put back to full size while atoms are fixed: Hessians, friction tensors, L-BFGS direction and lists. False: type 3 raises AttributeError, types 4 and 5 IndexError, the lists of positions are reduced with the map of Hessians.", "quantifier": "all numbers of atoms and beads, all lists of fixed coordinates with a fixed and a free atom", "why_tests_cant": "Needs every array type with fixed atoms.", "anchors": ["ipi/utils/instools.py:363-500", "ipi/engine/motion/instanton.py:1886-1907"]}
{"id": "C168", "title": "Instanton: recomputed Hessian with fixed atoms", "statement": "With hessian_update recompute and fixed atoms the recomputed Hessian is stored. False: it is already of full size and its extension fails; with powell it is stored.", "quantifier": "all systems with a fixed and a free atom", "why_tests_cant": "The run fails only with this combination of options.", "anchors": ["ipi/engine/motion/instanton.py:1403-1486"]}
{"id": "C169", "title": "Instanton springs: energy, gradient and Hessian agree", "statement": "The gradient of the springs is the derivative of their energy, the energy is that of an open chain; the Hessian of the springs is its second derivative when all coefficients are one. With other coefficients the energy and gradient ignore them and the Hessian does not (false).", "quantifier": "all masses, bead numbers, frequencies and positions", "why_tests_cant": "Derivatives at all positions.", "anchors": ["ipi/engine/motion/instanton.py:737-871"]}
{"id": "C170", "title": "Instanton: banded Hessian", "statement": "For one bead or at least three, the banded form holds the complete Hessian (springs plus physical blocks) plus the shift on the diagonal and nothing else is nonzero; the mass-scaled banded form is the mass-scaled complete Hessian. With two beads the construction raises ValueError (so the statement for all bead numbers is false).", "quantifier": "all Hessians, coefficients, masses, bead numbers", "why_tests_cant": "All entries for all sizes.", "anchors": ["ipi/utils/instools.py:10-110", "ipi/engine/motion/instanton.py:810-871"]}
{"id": "C171", "title": "Instanton: Newton and Lanczos steps solve the full equations", "statement": "The step found from the banded matrix satisfies (H + (shift - lambda) M) d = alpha f for the complete Hessian H, and the Lanczos step goes against the force along the lowest mode and along the force along the other modes.", "quantifier": "all Hessians with symmetric blocks, forces, positive masses, simple lowest eigenvalue", "why_tests_cant": "Infinitely many Hessians.", "anchors": ["ipi/engine/motion/instanton.py:1612-1775"]}
{"id": "C172", "title": "Instanton: steps are limited", "statement": "After rescaling no component of a step exceeds the maximum step and the direction is unchanged.", "quantifier": "all steps and limits", "why_tests_cant": "All real vectors.", "anchors": ["ipi/engine/motion/instanton.py:1587-1592", "ipi/engine/motion/instanton.py:1633-1638", "ipi/engine/motion/instanton.py:1767-1772"]}
{"id": "C173", "title": "Instanton: weighted potential and gradient", "statement": "The physical gradient with discretisation weights is the derivative of the weighted sum of the potentials; the weights are one when the coefficients are one and sum to the coefficients with the ends halved.", "quantifier": "all coefficients, potentials acting bead by bead, positions", "why_tests_cant": "Derivatives at all positions.", "anchors": ["ipi/engine/motion/instanton.py:403-414"]}
{"id": "C174", "title": "Instanton: weights of the physical Hessian", "statement": "The physical part of the complete Hessian is the derivative of the weighted gradient. False for coefficients other than one: the blocks found by finite differences already carry the weight and are multiplied by it again.", "quantifier": "all coefficients, all quadratic wells", "why_tests_cant": "Only wrong when the discretisation is changed, and then only by a factor.", "anchors": ["ipi/engine/motion/instanton.py:389-414", "ipi/utils/hesstools.py:178-280", "ipi/utils/instools.py:57-98", "ipi/utils/instools.py:156-171"]}
{"id": "C175", "title": "Instanton: the new_disc argument", "statement": "Calling the mapper with new_disc False or 'one' or an array evaluates with coefficients one or the given ones. False: the value reaches the springs as another parameter; False raises TypeError, an array ValueError, 'one' leaves the coefficients.", "quantifier": "all values of the argument", "why_tests_cant": "The branches are not used by the shipped drivers.", "anchors": ["ipi/engine/motion/instanton.py:389-401", "ipi/engine/motion/instanton.py:737-760", "ipi/engine/motion/instanton.py:934-955"]}
{"id": "C176", "title": "Instanton: friction energy and gradient", "statement": "For constant diagonal friction the friction gradient is the derivative of the friction energy, and the total energy contains it once. The second half is false: it is added to the potential of every bead.", "quantifier": "all spectral densities, positions, numbers of beads", "why_tests_cant": "Derivatives at all positions.", "anchors": ["ipi/engine/motion/instanton.py:589-687"]}
{"id": "C177", "title": "Instanton: friction Hessian", "statement": "The ring polymer friction Hessian contains the terms from the derivative of the friction tensor when they are asked for. False: every entry is overwritten by the cross terms.", "quantifier": "all friction tensors and derivatives", "why_tests_cant": "Needs position dependent friction.", "anchors": ["ipi/engine/motion/instanton.py:509-557"]}
{"id": "C178", "title": "Instanton: friction tensors are checked", "statement": "A friction tensor that is not symmetric or has no real root is refused for every bead. False: the root is only checked for the last bead.", "quantifier": "all lists of friction tensors", "why_tests_cant": "The wrong tensor must be at an inner bead.", "anchors": ["ipi/engine/motion/instanton.py:457-471"]}
{"id": "C179", "title": "Instanton: reduced path", "statement": "The beads selected for a reduced path are in order, contain the first and last bead, number at least three, and every bead left out is within both thresholds (also in mass-scaled distance) of a selected one; inner beads selected are beyond a threshold from the one before; otherwise ValueError. The distance along the path starts at zero and grows by the mass-scaled distances of neighbours.", "quantifier": "all paths, potentials, thresholds", "why_tests_cant": "All paths and thresholds.", "anchors": ["ipi/engine/motion/instanton.py:299-360", "ipi/utils/instools.py:297-306"]}
{"id": "C180", "title": "Instanton: first geometry", "statement": "The stretched geometry mirrors the displacement of bead i at bead P-1-i, keeps the centroid, has its ends at plus and minus delta along the unstable mode, moves monotonically between, and leaves coordinates without a part in the mode in place.", "quantifier": "all geometries, modes, amplitudes, at least two beads", "why_tests_cant": "All bead numbers.", "anchors": ["ipi/engine/motion/instanton.py:1059-1083"]}
{"id": "C181", "title": "Instanton: end of the run", "statement": "The run ends exactly when the energy, force and position changes are below their tolerances. False: the force may be above its tolerance when the difference of successive forces is small.", "quantifier": "all values", "why_tests_cant": "All combinations of values.", "anchors": ["ipi/engine/motion/instanton.py:1116-1130"]}
{"id": "C182", "title": "Driven dynamics: the electric field", "statement": "The field is the amplitude times the cosine of the phase, times a Gaussian of the given peak and width; never larger than the amplitude, symmetric about the peak, periodic without a width, zero outside the driven ensembles, and the same for one time and for a list of times. False of the envelope when the peak is not positive: the width is then ignored.", "quantifier": "all amplitudes, times and widths", "why_tests_cant": "Real functions of time.", "anchors": ["ipi/engine/motion/driven_dynamics.py:397-460"]}
{"id": "C183", "title": "Driven dynamics: the impulse of the field", "statement": "Over a step the field changes the total momentum by the time step times the mean of its total forces at the beginning and the end; the time advances by dt per step. False with more than one kick of the outer level per step: the impulse is divided by their number.", "quantifier": "all systems, charges, fields, steps", "why_tests_cant": "All systems and fields.", "anchors": ["ipi/engine/motion/driven_dynamics.py:111-135,162-185", "ipi/engine/motion/dynamics.py:240-264"]}
{"id": "C184", "title": "Driven dynamics: reversibility and constraints", "statement": "A driven NVE step followed by a reversal of the momenta and a step with the field run backwards leads back to the start; a driven step keeps the constraints, and frozen coordinates do not move.", "quantifier": "all force functions, charges that depend on the positions, fields, nestings and propagators", "why_tests_cant": "All force functions and fields.", "anchors": ["ipi/engine/motion/driven_dynamics.py:111-128,162-173"]}
{"id": "C185", "title": "Driven dynamics: the work of the field", "statement": "A kick of the field changes the kinetic energy by the field times the time derivative of the dipole (mean of before and after). The work on atoms that do not move is zero. False with frozen atoms: they are kicked before they are stopped, and the energy is entered into the conserved quantity.", "quantifier": "all momenta, masses, charges, fields", "why_tests_cant": "All real momenta and charges.", "anchors": ["ipi/engine/motion/driven_dynamics.py:111-156", "ipi/engine/motion/dynamics.py:364-397"]}
{"id": "C186", "title": "Driven dynamics: Born charges of the driver", "statement": "The charges sent by the driver are used as they are exactly when every bead has 3N rows, 3 columns and obeys the sum rule; charges obeying the sum rule exactly cannot push the centre of mass. The sum over the atoms of accepted charges is within the threshold times the number of atoms. False: it is the mean that is compared, so the sum may be N times larger.", "quantifier": "all arrays, thresholds and numbers of atoms", "why_tests_cant": "All arrays.", "anchors": ["ipi/engine/motion/driven_dynamics.py:241-293", "ipi/inputs/motion/driven_dynamics.py:214-223"]}
{"id": "C187", "title": "Driven dynamics: Born charges of the input", "statement": "Charges given in the input are accepted exactly when there are 9 numbers per atom and bead, and the array written to a checkpoint is read back as the same charges.", "quantifier": "all arrays", "why_tests_cant": "All lengths.", "anchors": ["ipi/engine/motion/driven_dynamics.py:295-312"]}
{"id": "C188", "title": "Driven dynamics: the dipole", "statement": "The dipole under the key dipole is reported as sent; a dipole of another length, or none, gives NaN; a dipole sent as text is read. False of the text: it always gives NaN.", "quantifier": "all extras", "why_tests_cant": "All extras.", "anchors": ["ipi/engine/motion/driven_dynamics.py:343-391"]}
{"id": "C189", "title": "Dynamics: the check of the temperature", "statement": "A run whose ensemble needs a temperature stops when there is none. False of the driven ensembles, which are not in the list.", "quantifier": "all ensembles, numbers of beads, temperatures", "why_tests_cant": "All values.", "anchors": ["ipi/engine/motion/dynamics.py:204-233"]}
{"id": "C190", "title": "Planetary: the screening matrix", "statement": "The screening matrix of 3N times 3N entries is one exactly for the entries of two atoms whose minimum image distance is below the parameter; it is symmetric and never screens the entries of one atom with itself.", "quantifier": "all cells, positions, numbers of atoms", "why_tests_cant": "All cells and positions; the chain of concatenate, reshape and transpose for every size.", "anchors": ["ipi/engine/motion/planetary.py:181-203"]}
{"id": "C191", "title": "Planetary: the frequency matrix", "statement": "For samples of a harmonic system whose second moments are those of the ring polymer the matrix written is the lower triangle of the matrix of mass-scaled force constants; it is lower triangular, and screening only removes the entries of far atoms. False with one bead: the result is NaN.", "quantifier": "all samples, force constants, masses, frequencies", "why_tests_cant": "All matrices and samples.", "anchors": ["ipi/engine/motion/planetary.py:165-179,232-265"]}
{"id": "C192", "title": "Planetary: the constrained-centroid dynamics", "statement": "All its modes have the lowest frequency of the ring polymer of its size; it starts from the contraction of the path, with the same centroid at rest and momenta of nbeads times the temperature. False: with more than two and fewer beads than the path the modes are not those of the contraction, with more beads than the path it fails, and with a path of one bead there are no frequencies.", "quantifier": "all paths and numbers of beads", "why_tests_cant": "All paths.", "anchors": ["ipi/engine/motion/planetary.py:111-139,216-230"]}
{"id": "C193", "title": "Planetary: the stride", "statement": "A matrix is computed exactly at the steps that are multiples of the stride.", "quantifier": "all strides and steps", "why_tests_cant": "All steps.", "anchors": ["ipi/engine/motion/planetary.py:212-214"]}
{"id": "C194", "title": "Sparse matrices: recovery", "statement": "A matrix converted to the compressed row or column form, saved, loaded and converted back is the same matrix; only entries that are not zero are stored, and sums, differences and products are taken entry by entry.", "quantifier": "all matrices of all shapes over any type with a zero", "why_tests_cant": "All shapes and entries.", "anchors": ["ipi/utils/sparse.py:17-29,37-50,58-80,92-160"]}
{"id": "C195", "title": "Netstrings", "statement": "What is written as a netstring is read back, one after another, and what is read was framed with its length. False: an empty content is written but refused by the reader, and the function that writes fails on every input since numpy gives bytes to a buffer of characters.", "quantifier": "all contents and trailing texts", "why_tests_cant": "All strings.", "anchors": ["ipi/utils/io/__init__.py:476-508", "ipi/engine/motion/planetary.py:205-210"]}
{"id": "C196", "title": "Nudged elastic band: tangents", "statement": "The tangent at an image has length one; the improved tangent points to the higher neighbour on a slope, and at an extremum lies between both, nearer to the higher; a path walked backwards has the opposite tangents. False of the improved tangent where three images have the same energy.", "quantifier": "all images, energies and dimensions", "why_tests_cant": "Real vectors and all orders of three energies.", "anchors": ["ipi/engine/motion/neb.py:112-146"]}
{"id": "C197", "title": "Nudged elastic band: the force of the band", "statement": "Along the tangent only the springs act, with the difference of the distances to the neighbours; across it only the physical force. The gradient of an image vanishes exactly when the physical force is along the path and the image is evenly spaced.", "quantifier": "all images, forces, spring constants", "why_tests_cant": "Real vectors.", "anchors": ["ipi/engine/motion/neb.py:170-216"]}
{"id": "C198", "title": "Nudged elastic band: the climbing image", "statement": "Its force is the physical force reflected at the plane across the path: same length, opposite along the path, the same across it; so it is at rest exactly at stationary points of the potential.", "quantifier": "all images and forces", "why_tests_cant": "Real vectors.", "anchors": ["ipi/engine/motion/neb.py:245-282"]}
{"id": "C199", "title": "Nudged elastic band: what moves", "statement": "Whatever the optimiser does, over any number of steps the endpoints and the fixed coordinates stay where they are; a climbing step moves one image only, which when chosen is the first of the highest and never an endpoint.", "quantifier": "all optimisers, numbers of steps and images", "why_tests_cant": "Any sequence of optimiser results.", "anchors": ["ipi/engine/motion/neb.py:66-79,481-500,720-724,836-845,878-884"]}
{"id": "C200", "title": "Nudged elastic band: convergence", "statement": "The band stage ends exactly when the gradients, displacements and the energy change are within the tolerances, and then climbs or ends with success; a climbing run that ends with success has a small gradient as long as the physical force; a converged run started again ends at once. False: the stage endpoints without their optimisation does nothing for ever.", "quantifier": "all states, tolerances, potentials", "why_tests_cant": "All states.", "anchors": ["ipi/engine/motion/neb.py:564-600,766-800,918-945"]}
{"id": "C201", "title": "Nudged elastic band: the climbing image is chosen once", "statement": "Once climbing has begun the climbing image and its neighbours are not changed. False when a neighbour has all its coordinates at zero, which is taken as not yet chosen.", "quantifier": "all states", "why_tests_cant": "All states.", "anchors": ["ipi/engine/motion/neb.py:836-845"]}
{"id": "C202", "title": "Nudged elastic band: the largest step", "statement": "A good direction lengthens the largest step, a bad one halves it, and it never falls to a hundredth. False: a bad direction lengthens a short one.", "quantifier": "all steps and qualities", "why_tests_cant": "Real numbers, sequences of any length.", "anchors": ["ipi/engine/motion/neb.py:534-558"]}
{"id": "C203", "title": "Nudged elastic band: the Hessian given to a run", "statement": "A Hessian of the right size is used, none is replaced by the unit matrix, one of all images is reduced, and a run stopped while climbing goes on with its Hessian. False of the last two: AttributeError and ValueError.", "quantifier": "all sizes", "why_tests_cant": "All sizes.", "anchors": ["ipi/engine/motion/neb.py:405-479"]}
{"id": "C204", "title": "Nudged elastic band: the forces left for output", "statement": "After a step the forces of all images are the physical forces. True of the band for a component of weight one. False with another weight (those of the endpoints are multiplied by it at every step, the first gradients too) and of the climbing image, whose force is replaced by the gradient that is minimised.", "quantifier": "all states, weights and forces", "why_tests_cant": "All states.", "anchors": ["ipi/engine/motion/neb.py:83-98,745-764,895-916", "ipi/engine/forces.py:1118-1157"]}
{"id": "C205", "title": "Every motion can be built from its input section", "statement": "For each of the modes of <motion>, the fields of its input section are a set of arguments its constructor accepts, and each reaches the attribute of that name. A field the constructor does not have stops the run. False of constrained_dynamics.", "quantifier": "all modes and all fields", "why_tests_cant": "All sections, all fields.", "anchors": ["ipi/inputs/motion/motion.py:246-435", "ipi/engine/motion/constrained_dynamics.py:60-90"]}
{"id": "C206", "title": "A checkpoint keeps every option of the motion", "statement": "Storing a motion in its input section and building it again gives every constructor argument the value it had. The lost arguments of each section are exactly those listed; all others survive. False of neb, scp, planetary and al-kmc.", "quantifier": "all sections, all arguments and values", "why_tests_cant": "All sections, all arguments.", "anchors": ["ipi/inputs/motion/", "ipi/inputs/motion/motion.py:160-245"]}
{"id": "C207", "title": "Restarted geometry optimisation", "statement": "Every option a minimiser reads is stored in a checkpoint. False of the line-search options of bfgs and lbfgs.", "quantifier": "all minimisers and options", "why_tests_cant": "All minimisers.", "anchors": ["ipi/inputs/motion/geop.py", "ipi/engine/motion/geop.py:465-466,668-669"]}
{"id": "C208", "title": "Restarted instanton optimisation", "statement": "The options and the Hessian of an instanton run survive a checkpoint except exactly those listed. False of hessian_asr with lbfgs.", "quantifier": "all optimisers and options", "why_tests_cant": "All optimisers.", "anchors": ["ipi/inputs/motion/instanton.py", "ipi/engine/motion/instanton.py"]}
{"id": "C209", "title": "The stage of a nudged elastic band can be read back", "statement": "Every stage the band reaches is among the values the input accepts. False of the last one, converged.", "quantifier": "all stages", "why_tests_cant": "All stages.", "anchors": ["ipi/inputs/motion/neb.py:261-266", "ipi/engine/motion/neb.py"]}
{"id": "C210", "title": "Quantities of the beads are those of the current masses, positions and momenta", "statement": "After any assignments and reads, in any order, mass arrays, centroids, total masses, kinetic energies and stresses of the beads and the spring potential are those of what was assigned last. False of the spring force fpath after a change of masses.", "quantifier": "all sequences of assignments and reads, any values", "why_tests_cant": "Unbounded histories.", "anchors": ["ipi/engine/beads.py:70-166", "ipi/engine/atoms.py:100-142"]}
{"id": "C211", "title": "Every property of beads and atoms can be read", "statement": "Each name made a property of Atoms and Beads can be read. False of Beads.kin, whose function reads a name that is not a property.", "quantifier": "all properties", "why_tests_cant": "All properties.", "anchors": ["ipi/engine/beads.py:228-238,349-365", "ipi/utils/depend.py:732-741"]}
{"id": "C212", "title": "Self-consistent phonons: the configurations", "statement": "With an even number of configurations each has its mirror image about the mean position, so their mean is the mean position exactly; no row of random numbers is used twice in a run, and none lies outside the table. False of odd numbers, which end in an IndexError.", "quantifier": "all numbers of configurations, iterations, random numbers", "why_tests_cant": "All sizes and random numbers.", "anchors": ["ipi/engine/motion/scphonons.py:169-181,341-358"]}
{"id": "C213", "title": "Self-consistent phonons: the sequence of steps", "statement": "Each iteration takes max_steps/nparallel + 2 steps and computes every configuration exactly once; the run ends after max_iter iterations and not before; each batch is recorded with the distribution it was drawn from. False of a restart that finds configurations on disk, and of odd max_steps.", "quantifier": "all numbers of steps, configurations, iterations", "why_tests_cant": "Runs of any length.", "anchors": ["ipi/engine/motion/scphonons.py:105-199,254-411,447-448"]}
{"id": "C214", "title": "Self-consistent phonons: the chosen way of moving is carried out", "statement": "Without the check of the forces, or when they are significant, exactly the chosen way of displacing is carried out. False of sd with the default check.", "quantifier": "all modes", "why_tests_cant": "All combinations.", "anchors": ["ipi/engine/motion/scphonons.py:461-602", "ipi/inputs/motion/scphonons.py:75-83,122-129"]}
{"id": "C215", "title": "Self-consistent phonons: the inner loop of rnmik", "statement": "When it ends, all forces are within their errors or the weights of the batches are below the threshold. That it ends is false: forces without error are never within their errors.", "quantifier": "all forces, errors, weights, any number of passages", "why_tests_cant": "Loops of any length.", "anchors": ["ipi/engine/motion/scphonons.py:602-669"]}
{"id": "C216", "title": "Self-consistent phonons: weights", "statement": "The weight of a configuration takes the distribution it was drawn from to the present one; it is one if they are the same. Normalised weights add up to one. The weight of a batch lies between zero and one, is one exactly when all its configurations weigh the same, and depends on ratios only.", "quantifier": "all distributions, configurations, exponents", "why_tests_cant": "Real numbers.", "anchors": ["ipi/engine/motion/scphonons.py:782-815"]}
{"id": "C217", "title": "Self-consistent phonons: averages of a batch", "statement": "The average lies between the smallest and largest value, does not depend on the normalisation of weights, and with equal weights is the mean, its variance that with n - 1; the variance is defined and not negative for two or more configurations.", "quantifier": "all values and positive weights", "why_tests_cant": "Real numbers.", "anchors": ["ipi/engine/motion/scphonons.py:737-741"]}
{"id": "C218", "title": "Self-consistent phonons: average force and Hessian", "statement": "For a harmonic potential one mirrored batch gives the force at the mean position exactly, and the Hessian too if its correlations are those of the distribution; for the potential of the trial matrix any batches do, with error zero. The Hessian is symmetric; the total weight is at least one after each iteration.", "quantifier": "all harmonic potentials, batches, weights", "why_tests_cant": "Real matrices of any size.", "anchors": ["ipi/engine/motion/scphonons.py:712-780"]}
{"id": "C219", "title": "Self-consistent phonons: frequencies", "statement": "The matrix keeps its eigenvectors and gets the absolute values of its eigenvalues, so it is positive; one without negative eigenvalues is not changed. Modes not taken as zero have positive frequencies with correct inverses. False that imaginary frequencies are replaced by zero, as documented.", "quantifier": "all symmetric matrices, any eigensolver", "why_tests_cant": "Real matrices of any size.", "anchors": ["ipi/engine/motion/scphonons.py:887-907"]}
{"id": "C220", "title": "Self-consistent phonons: mean square displacements", "statement": "The classical mean square displacement of a mode is temperature over squared frequency; the quantum one is above it and above that of zero temperature and below their sum.", "quantifier": "all frequencies and temperatures", "why_tests_cant": "Real numbers.", "anchors": ["ipi/engine/motion/scphonons.py:829-847"]}
{"id": "C221", "title": "Self-consistent phonons: the matrices belong together", "statement": "The inverse correlation matrix and inverse force constants invert their matrices, zero modes aside; unit normal random numbers become displacements with the correlations D.", "quantifier": "all masses, matrices, temperatures", "why_tests_cant": "Real matrices of any size.", "anchors": ["ipi/engine/motion/scphonons.py:351,849-885"]}
{"id": "C222", "title": "Self-consistent phonons: displacements", "statement": "nmik moves each mode by its force over the squared frequency if the force is not below its error and not at all otherwise; with significant forces it is ik; ik reaches the minimum of the potential of the trial matrix in one step.", "quantifier": "all forces, errors, masses, matrices", "why_tests_cant": "Real matrices of any size.", "anchors": ["ipi/engine/motion/scphonons.py:491,522,571-581,653-657"]}
{"id": "C223", "title": "Anharmonic modes: each mode treated once", "statement": "With non-negative eigenvalues in ascending order each frequency is the square root of its eigenvalue (zero below 1e-15); every mode of at least 2 cm^-1 is treated exactly once, in order, no slower one is, and then the run ends. False of imaginary modes: their frequency is not a number and they are treated as any other.", "quantifier": "all eigenvalues, numbers of modes and steps", "why_tests_cant": "Runs of any length, real eigenvalues.", "anchors": ["ipi/engine/motion/vscf.py:202-212,336-368"]}
{"id": "C224", "title": "Anharmonic modes: sampling along a mode", "statement": "The walk in each direction visits all multiples up to the first at which the energy exceeds the threshold; no displacement is sampled twice, over any number of refinements. For a harmonic potential the stored anharmonic potential is zero and the walk stops where the harmonic energy exceeds the threshold. False that the walk ends for every potential and that the stored anharmonic force is zero for a supercell.", "quantifier": "all potentials, numbers of refinements, supercells", "why_tests_cant": "Loops of any length, real functions.", "anchors": ["ipi/engine/motion/vscf.py:428-556"]}
{"id": "C225", "title": "Anharmonic modes: convergence", "statement": "The loop ends at the first passage whose free energy differs from the one before by less than the threshold, and that value is reported. False that two passages are compared: the first is compared with 1e-20.", "quantifier": "all sequences of free energies", "why_tests_cant": "Loops of any length.", "anchors": ["ipi/engine/motion/vscf.py:381-417,444-446,558-609"]}
{"id": "C226", "title": "Anharmonic modes: restarts", "statement": "Samples and modes read from files give the same run. False: the basis of a passage is five functions larger, a file with one mode is not read, and the energy of the minimum is zero if all modes were read.", "quantifier": "all numbers of modes and basis functions", "why_tests_cant": "Restarts at any point.", "anchors": ["ipi/engine/motion/vscf.py:276,381-446,567,689,790-810"]}
{"id": "C227", "title": "Anharmonic modes: the Schroedinger equation", "statement": "The matrix solved is that of the harmonic oscillator plus the matrix elements of the anharmonic potential on the grid, and symmetric. A potential constant on the grid shifts free and internal energy by the constant; a harmonic mode gets no correction.", "quantifier": "all basis functions, grids, potentials, any eigensolver", "why_tests_cant": "Real matrices of any size.", "anchors": ["ipi/engine/motion/vscf.py:303-334"]}
{"id": "C228", "title": "Anharmonic modes: free and internal energy", "statement": "The free energy is below every level and at most T ln nb below the lowest; the internal energy lies between the lowest and highest levels and is not below the free energy. The harmonic sum over nb levels is the printed closed form and a positive remainder -T ln(1 - x^nb).", "quantifier": "all levels and temperatures", "why_tests_cant": "Real numbers.", "anchors": ["ipi/engine/motion/vscf.py:325-328,637-664,692-708"]}
{"id": "C229", "title": "Coupled modes: the sequence of steps", "statement": "The pairs are all pairs of distinct modes, each once; a run computes the energy of the minimum, maps each mode once, each pair once, and then solves or ends.", "quantifier": "all sets of modes", "why_tests_cant": "Runs of any length.", "anchors": ["ipi/engine/motion/vscf.py:790-844,860-1249"]}
{"id": "C230", "title": "Coupled modes: the map of one mode", "statement": "The map holds the potential at all multiples of the unit from two beyond the first one above the threshold on the negative side to two beyond on the positive side, in ascending order, and the displacements listed are those.", "quantifier": "all potentials and thresholds", "why_tests_cant": "Loops of any length.", "anchors": ["ipi/engine/motion/vscf.py:919-961,1415-1472"]}
{"id": "C231", "title": "Coupled modes: the map of a pair", "statement": "Every value stored for a pair of modes is the potential at the two displacements, values on the axes being taken from the maps of one mode. True if no mode lies between the zero modes and 2 cm^-1; otherwise false.", "quantifier": "all potentials, modes, maps", "why_tests_cant": "Any number of modes and samples.", "anchors": ["ipi/engine/motion/vscf.py:797-844,1041-1141"]}
{"id": "C232", "title": "Coupled modes: density and mean field", "statement": "The density of a mode is the thermal average of the densities of its states, and the field that does not change is the potential of the mode and the couplings averaged over the others. The density adds up to one and is right for two states; false for three. The field is right for alpha = 1 only.", "quantifier": "all states, couplings, mixing parameters", "why_tests_cant": "Real numbers.", "anchors": ["ipi/engine/motion/vscf.py:1253-1376"]}
{"id": "C233", "title": "PLUMED: evaluation", "statement": "The potential and force returned are those of PLUMED alone, also when it was given the energy and forces of the system; the bias is not changed by an evaluation; arrays of another length are refused. The virial is minus that of PLUMED. False of the virial when the energy of the system is used: twice the system's virial is added.", "quantifier": "all PLUMED states, positions, cells, systems", "why_tests_cant": "Any bias whatever.", "anchors": ["ipi/engine/forcefields.py:999-1060"]}
{"id": "C234", "title": "PLUMED: updates", "statement": "An update at the positions evaluated last returns by how much the bias there has gone down; over any number of updates the works add up to the whole change and the steps are counted one by one. False at other positions, where the intended full update is an AttributeError.", "quantifier": "all PLUMED states, numbers of updates", "why_tests_cant": "Runs of any length, any bias.", "anchors": ["ipi/engine/forcefields.py:1062-1104"]}
{"id": "C235", "title": "Metadynamics: conserved quantity", "statement": "A step of metadynamics leaves the conserved quantity of each system as it is. True if the weights of the bias components of each force field add up to one; false of other weights.", "quantifier": "all biases, numbers of beads and components", "why_tests_cant": "Any number of components, any bias.", "anchors": ["ipi/engine/smotion/metad.py:62-101", "ipi/engine/ensembles.py:268-282"]}
{"id": "C236", "title": "Metadynamics: cached bias", "statement": "After a step the cached bias potential is that of the bias with the new hill, and the cached force as well since the force of a hill is zero at its centre. False without compute_work, and for two systems that share a PLUMED.", "quantifier": "all biases, hills, positions", "why_tests_cant": "Any bias, real functions.", "anchors": ["ipi/engine/smotion/metad.py:89-101"]}
{"id": "C237", "title": "PLUMED: energy and extras", "statement": "The energy given to PLUMED is that of the system biased, and systems with several beads are refused; scalar variables can be retrieved and longer ones are refused. False of two systems with one PLUMED, of scalars, and of vectors.", "quantifier": "all systems and variables", "why_tests_cant": "All combinations.", "anchors": ["ipi/engine/smotion/metad.py:36-60", "ipi/engine/forcefields.py:976-986"]}
{"id": "C238", "title": "JSON trajectories are read back", "statement": "A JSON trajectory of any length is read back frame by frame: title, converted positions, names, and the cell, for cells in standard form. False of names longer than four characters, and of the frames after a damaged line, which are lost without an error.", "quantifier": "all frames, numbers of frames, conversions", "why_tests_cant": "Trajectories of any length, real cells.", "anchors": ["ipi/utils/io/backends/io_json.py:35-112"]}
{"id": "C239", "title": "Binary trajectories are read back", "statement": "A binary file with one frame is read back; one cut within the cell is taken as finished and one cut after it is an IndexError. False of two frames: one frame at most is read from any file, and its title contains the rest of the file.", "quantifier": "all frames, all contents of the file", "why_tests_cant": "Files of any length.", "anchors": ["ipi/utils/io/backends/io_binary.py:16-58"]}
{"id": "C240", "title": "A file read by its name is read in its format", "statement": "The extension chooses the reader of the format, and the default units are those of the format. False of the units of pdb and ase files.", "quantifier": "all extensions", "why_tests_cant": "Any extension.", "anchors": ["ipi/utils/io/__init__.py:63-90,310-349", "ipi/utils/io/io_units.py:33-44"]}
{"id": "C241", "title": "Sorting a replica exchange gives one file per ensemble", "statement": "Run on the files of a replica exchange of any length, remdsort writes into the k-th file, for every step with an output, the frame of the one system that had the k-th ensemble at that step, for properties and for trajectories with their own strides, and stops at the end of the files. False of a run that starts from another replica index, of trajectories in the json or binary format (nothing is copied), of extras frames that are not two lines long, and of simulations without property outputs, where the tool fails or never ends.", "quantifier": "all histories of exchanges, numbers of systems, outputs, strides, lengths", "why_tests_cant": "Arbitrary histories of exchanges and any set of outputs; the link between the swap file, the state of the systems and the sorted files cannot be enumerated.", "anchors": ["tools/py/remdsort.py:192-247", "ipi/engine/smotion/remd.py:84-220"]}
{"id": "C242", "title": "Cut files continue as if the run had not been interrupted", "statement": "Cutting the outputs and the swap file of a run at step T gives those of a run of T steps, so that what a run restarted from T appends makes the files of an uninterrupted run. Without the cut every later line of the swap file is ignored by remdsort. False of files that stop before T: the tool fails.", "quantifier": "all lengths, steps, outputs, strides, swaps", "why_tests_cant": "Any position of the cut.", "anchors": ["tools/py/trimsim.py:177-227", "tools/py/remdsort.py:242-245"]}
{"id": "C243", "title": "The tools look for the files that the simulation writes", "statement": "For positions, velocities, forces, extras and what has one file per system, remdsort and trimsim open exactly the files written by the simulation, whatever the number of beads, the format and the selected bead. False of momenta and the other forces, of every n-th bead, of the raw extras of a component, of the swap file without a prefix, and for trimsim of the ase format and of extras_bias.", "quantifier": "all keys, formats, bead numbers, names", "why_tests_cant": "Any name and number of beads.", "anchors": ["tools/py/remdsort.py:78-192", "tools/py/trimsim.py:49-151", "ipi/engine/outputs.py:380-436"]}
{"id": "C244", "title": "Stepping a simulation from a script is the same as running it", "statement": "Any sequence of run(n) with n at least one gives the state, the frames of every output and the RESTART file of a single run of the sum; the step counter counts the steps made also when a run ends early; and a soft exit at any time, also between or in the middle of later runs, leaves a RESTART file on the trajectory. False of run(0), which moves the counter and the RESTART file on by one without a step, of runs after a motion has finished, and of the initial frame if the first run is made without outputs.", "quantifier": "all sequences of runs, outputs, strides, safe strides, ends of runs", "why_tests_cant": "Any split of a run and any time of the exit.", "anchors": ["ipi/scripting/interactive.py:89-100", "ipi/engine/simulation.py:326-466", "ipi/engine/outputs.py:717-779"]}
{"id": "C245", "title": "Properties fetched from a script are in ASE units", "statement": "properties returns for every system the value divided by the ASE unit of its dimension, in a list unless there is one system. False of the unit given between braces, which is ignored, and of properties with an empty dimension, which cannot be fetched.", "quantifier": "all systems, dimensions, values, units", "why_tests_cant": "All dimensions and numbers of systems.", "anchors": ["ipi/scripting/interactive.py:102-114", "ipi/utils/units.py:306-434", "ipi/engine/properties.py:997-1033"]}
{"id": "C246", "title": "Structures set from a script are the structures read afterwards", "statement": "set_structures(get_structures()) changes nothing for any number of systems and beads, and structures set for the beads of a system are read back when they have one cell. False when the structures have different cells (the last one holds for all beads) and accepted without an error with fewer structures than beads.", "quantifier": "all systems, beads, positions, momenta, cells, units", "why_tests_cant": "Any shape of the nested lists.", "anchors": ["ipi/scripting/interactive.py:116-177"]}
{"id": "C247", "title": "Thermalizing from a script keeps the conserved quantity", "statement": "thermalize_momenta leaves the sum of the kinetic energy and of the energy exchanged with the ensemble unchanged, with and without the center of mass fixed, in which case the total momentum is zero; without, the momenta are the gaussian numbers times the root of mass times P T k_B.", "quantifier": "all masses, momenta, random numbers, temperatures", "why_tests_cant": "Any masses, momenta and random numbers.", "anchors": ["ipi/scripting/interactive.py:179-206", "ipi/engine/motion/dynamics.py:373-396"]}
{"id": "C248", "title": "Outputs read by the parsing functions are the values written", "statement": "read_output gives for every property of a file the values of its columns, line by line, and no other name; the extras of a trajectory come back frame by frame with their steps, and files with two kinds of extras are refused. False of a property written twice in different units, whose values are mixed; of the step attached to the frames of a trajectory, right exactly for steps below ten; and of extras text of more than one line.", "quantifier": "all lists of properties, sizes, rows, frames, steps", "why_tests_cant": "Any number of columns and rows, any step.", "anchors": ["ipi/scripting/parsing.py:24-106", "ipi/scripting/parsing.py:109-239", "ipi/engine/outputs.py:231-300"]}
{"id": "C249", "title": "Every trajectory file gets the frames of its own bead", "statement": "A trajectory with one file per bead writes into the file of bead b exactly the data of bead b, labelled with the step and the bead, for the beads selected (all, every n-th, or one), and into no other file; with a flush interval of k fewer than k frames are ever unflushed. A bead that does not exist is not refused at the start: no file is opened and the run fails at the first output.", "quantifier": "all numbers of beads, selections, steps, data, flush intervals", "why_tests_cant": "Any number of beads and selection.", "anchors": ["ipi/engine/outputs.py:380-421", "ipi/engine/outputs.py:453-517"]}
{"id": "C250", "title": "Extras files hold the fields asked for, of their bead", "statement": "Asked for by name, numeric extras are written with the fields in the order asked for, on one line or row by row side by side, only what belongs to the bead of the file is written, an unknown name is refused, and read_trajectory gives back the steps and the lines. False of raw extras, where every file has the extras of all beads, and of fields of text, which come before the numbers.", "quantifier": "all dictionaries of extras, names, beads, steps", "why_tests_cant": "Any set of fields and shapes.", "anchors": ["ipi/engine/outputs.py:519-611", "ipi/scripting/parsing.py:152-196"]}
{"id": "C251", "title": "The centroids of even and odd beads are the means of the two halves", "statement": "With an even number of beads x_centroid_even and x_centroid_odd (and the velocities) are the means over the even and the odd beads, and their mean is the centroid. With one bead the even centroid is twice the position.", "quantifier": "all even numbers of beads, positions, momenta, masses", "why_tests_cant": "Any number of beads.", "anchors": ["ipi/engine/properties.py:3008-3051"]}
{"id": "C252", "title": "The time of a driven potential counts the steps of the simulation", "statement": "With one bias component that uses it, the counter of a driven force field is the number of steps made, other force fields are not touched, and one that cannot be driven is refused; the force kept after step n+1 is that of counter n. False with several systems or components, where the time runs faster, and of a restart: the force at the last configuration is computed anew with the counter of the next step.", "quantifier": "all lists of systems, components, force fields, step numbers, forces", "why_tests_cant": "Any systems and number of steps.", "anchors": ["ipi/engine/smotion/dmd.py:48-63", "ipi/engine/forcefields.py:757-795"]}
{"id": "C253", "title": "Direct reweighting of a committee gives averages with normalised positive weights", "statement": "For every model the weights of the frames are positive and add up to one, so the reweighted average lies within the bounds of the observable; constants added to all models of a frame or to a model in all frames do not count; potentials that agree give the plain average.", "quantifier": "all numbers of frames and models, potentials, observables, temperatures", "why_tests_cant": "Any potentials.", "anchors": ["tools/py/committee-reweight.py:7-49"]}
{"id": "C254", "title": "The cumulant expansion is direct reweighting to first order in the inverse temperature", "statement": "The value for a model is the average minus the covariance of the observable with the potential relative to the committee mean, over kT; it has the value and the slope of direct reweighting at infinite temperature, and the mean over the models is the plain average.", "quantifier": "all numbers of frames and models, potentials, observables, temperatures", "why_tests_cant": "A derivative and an identity for all tables.", "anchors": ["tools/py/committee-reweight.py:52-99"]}
{"id": "C255", "title": "The uncertainty for several observable models is the variance of all reweighted averages", "statement": "The total uncertainty is the variance over the reweighted averages of every pair of an observable model and a potential (this is what the formula gives with the arguments of CEA in their order), and a negative stride thins out the observables.", "quantifier": "all tables with at least two potentials and two models", "why_tests_cant": "Any tables.", "anchors": ["tools/py/committee-reweight.py:102-133", "tools/py/committee-reweight.py:173-179"]}
{"id": "C256", "title": "Parallel tempering weights: log-weights of lines and factors of replicas", "statement": "For every replica the factor in the WEIGHTS file is the square of the sum of the weights over the number of frames and the sum of squares, for weights exp(V(1/T-1/T0)) of the frames not skipped, between zero and one and one for T=T0; the log-weights of two lines differ by the difference of potential times (1/T-1/T0).", "quantifier": "all sequences of steps and potentials, temperatures, skips, lists of files", "why_tests_cant": "Any run.", "anchors": ["tools/py/paraweights.py:64-65", "tools/py/paraweights.py:144-222"]}
{"id": "C257", "title": "Contracting a trajectory keeps units and cell", "statement": "The numbers written are the ring polymer contraction of the numbers read (the mean for one bead), in the same units, and the cell is that of the first file, so that reading the new file gives the contraction of the old ones.", "quantifier": "all comments, numbers of beads, coordinates, cells", "why_tests_cant": "Any units.", "anchors": ["tools/py/contract-trajectory.py:31-137"]}
{"id": "C258", "title": "Multiplexing writes the chosen frames of all beads, bead after bead", "statement": "If the files have the same number of frames the output is, for every frame from begin, before end and a multiple of the stride, this frame of every file in turn. Wrapping and unwrapping is done on request.", "quantifier": "all numbers of files and frames, begin, end, stride", "why_tests_cant": "Any trajectories.", "anchors": ["tools/py/mux-positions.py:22-141"]}
{"id": "C259", "title": "The kinetic energy tool gives what the run would have written", "statement": "For every atom the three diagonal and three other components from positions and forces are those of the trajectories kinetic_cv and kinetic_od.", "quantifier": "all beads, atoms, positions, forces, temperatures", "why_tests_cant": "Any state.", "anchors": ["tools/py/posforce2kinetic.py:94-115", "ipi/engine/properties.py:3164-3198"]}
{"id": "C260", "title": "The transient anisotropic Gaussian is a triangular average around its frame", "statement": "When a mean is taken the circular buffer holds the last 2 lag + 1 frames, and the mean written for frame n has weights (1 - d/lag)/lag at distance d on both sides; a constant is its own mean.", "quantifier": "all lags, frame numbers, data", "why_tests_cant": "Any number of frames.", "anchors": ["tools/py/kinetic2tag.py:22-86"]}
{"id": "C261", "title": "fixcom moves the centre of mass of the centroids to the origin", "statement": "In every frame, treated on its own, the centre of mass of the centroids becomes zero and all differences of positions of beads are kept.", "quantifier": "all numbers of frames, beads, atoms, positions, masses", "why_tests_cant": "Any frames.", "anchors": ["tools/py/fixcom.py:24-79"]}
{"id": "C262", "title": "Effective temperatures are not below the temperature of the simulation", "statement": "With at least one frame after the ones skipped every effective temperature is at least T, the last column is the mean of the components, and the frames skipped do not count. With fewer frames than are skipped T is reported whatever the forces.", "quantifier": "all forces, masses, temperatures, skips", "why_tests_cant": "Any forces.", "anchors": ["tools/py/effective_temperatures.py:31-123"]}
{"id": "C263", "title": "getproperty prints the column of the property named", "statement": "If one header has a name that begins with the one given, its column is printed for every line after the ones skipped.", "quantifier": "all headers, names, tables", "why_tests_cant": "Any file.", "anchors": ["tools/py/getproperty.py:21-62", "ipi/engine/outputs.py:240-258"]}
{"id": "C264", "title": "The autocorrelation function of a block is its periodic autocorrelation", "statement": "For every lag the value is dt/2pi times the product of the vectors of frames that far apart, taken periodically in the block, averaged over frames, chosen atoms and blocks.", "quantifier": "all trajectories, lags, block lengths, selections, windows", "why_tests_cant": "An identity of discrete Fourier transforms for all block lengths.", "anchors": ["ipi/utils/tools/acf_xyz.py:103-162"]}
{"id": "C265", "title": "The spectrum is the cosine transform of the windowed and padded autocorrelation function", "statement": "The spectrum has 2 (mlag + padding) values for the frequencies returned; transforming back gives the autocorrelation function times the window and then zeros; its mean is the value at lag zero whatever the window; it is symmetric; every window is one in the middle, even and between zero and one.", "quantifier": "all trajectories, lags, paddings, windows", "why_tests_cant": "Identities for all lengths.", "anchors": ["ipi/utils/tools/acf_xyz.py:80-101", "ipi/utils/tools/acf_xyz.py:131-138"]}
{"id": "C266", "title": "Blocks are consecutive stretches of the trajectory and errors are mean square deviations", "statement": "The blocks are the consecutive stretches after the frames skipped, and an incomplete one is dropped; the error squared is the mean square deviation over blocks; there is a result if and only if there is a whole block, an atom is chosen and the window is known.", "quantifier": "all numbers of frames, skips, block lengths", "why_tests_cant": "Any trajectory.", "anchors": ["ipi/utils/tools/acf_xyz.py:36-56", "ipi/utils/tools/acf_xyz.py:103-162"]}
{"id": "C267", "title": "Atoms are chosen by label and derivatives are exact for linear motion", "statement": "An atom is chosen if its name is among the labels or a star is; the derivative is exact for linear motion, and for constant acceleration but for the first and last frame of a block.", "quantifier": "all labels, names, motions", "why_tests_cant": "Any labels.", "anchors": ["ipi/utils/tools/acf_xyz.py:62-75", "ipi/utils/tools/acf_xyz.py:114-115"]}
{"id": "C268", "title": "getacf writes the lags up to the largest and the lower half of the frequencies", "statement": "The files have one line for every lag below mlag + padding up to mlag and for every frequency up to but without half the sampling frequency, with the right time and frequency. A lag of zero is refused.", "quantifier": "all arguments and trajectories", "why_tests_cant": "Any arguments.", "anchors": ["tools/py/getacf.py:100-123"]}
{"id": "C269", "title": "Cqp is the stationary covariance of position, momentum and additional variables", "statement": "For eigenvectors of the scaled drift the matrix solves A C + C A^T = D, which for a canonical thermostat gives diag(1/w^2, 1, ..., 1).", "quantifier": "all dimensions, drifts, diffusions, frequencies, eigenvectors", "why_tests_cant": "Matrices of any dimension.", "anchors": ["ipi/utils/tools/gle.py:33-54", "ipi/utils/tools/gle.py:58-119"]}
{"id": "C270", "title": "The kernel is the velocity spectrum of an oscillator with the thermostat", "statement": "An entry is the p component of A (A^2 + w^2/w0^2)^-1 C over w0, and for white noise the spectrum g w^2 / ((w^2 - w0^2)^2 + g^2 w^2) times 2 dw/pi with a friction g of at least twice the spacing; no frequency of the grid is zero.", "quantifier": "all dimensions, drifts, frequencies, eigenvectors", "why_tests_cant": "Any thermostat.", "anchors": ["ipi/utils/tools/gle.py:122-165"]}
{"id": "C271", "title": "Deconvolution keeps spectra positive, does not increase the distance and stops at the solution", "statement": "With a kernel that is not negative every step keeps a positive spectrum positive and does not increase the squared distance between its convolution and the given spectrum; a spectrum that is convoluted into the given one stays.", "quantifier": "all kernels, spectra, numbers of steps", "why_tests_cant": "Induction on steps and an inequality for all spectra.", "anchors": ["ipi/utils/tools/gle.py:168-197", "tools/py/gleacf.py:69-79"]}
{"id": "C272", "title": "The error reported by the deconvolution is the squared distance of the convolution", "statement": "The error is that between the convolution of the present spectrum and the given one.", "quantifier": "all kernels and spectra", "why_tests_cant": "Any kernel.", "anchors": ["ipi/utils/tools/gle.py:185-190"]}
{"id": "C273", "title": "The estimators of the PPI tools are i-PI's own, with and without the compiled module", "statement": "Primitive and virial kinetic energy computed by energies_ppi from positions and forces are kinetic_td and kinetic_cv of the same state; the compiled functions give the same three numbers, although positions and forces are passed to the virial in exchanged order.", "quantifier": "all numbers of beads and atoms, positions, forces, masses, temperatures", "why_tests_cant": "Sums over any number of beads and atoms.", "anchors": ["tools/py/energies_ppi.py:163-224", "tools/f90/fortran.f90:1-107"]}
{"id": "C274", "title": "Line n of energies_ppi holds running averages over the first n + 1 frames that are not skipped", "statement": "Every line has the time since the last skipped frame and ten columns that are fixed functions of means and covariances over the frames from the first not skipped up to its own; skipped frames have no line and no influence but for the origin of time.", "quantifier": "all trajectories and numbers of frames skipped", "why_tests_cant": "Induction over frames.", "anchors": ["tools/py/energies_ppi.py:120-275"]}
{"id": "C275", "title": "The PPI corrections are exact to first order in the perturbation", "statement": "The corrections of potential, kinetic and total energy are the derivatives, at zero strength, of the averages of the corrected estimators over the frames reweighted to the potential raised by hbar^2 beta^2 f^2/m / (24 P^3); the total one is the sum of the others.", "quantifier": "all sets of frames, numbers of beads, temperatures", "why_tests_cant": "A derivative over all ensembles.", "anchors": ["tools/py/energies_ppi.py:235-243", "tools/py/total_energy_ppi.py:221-224"]}
{"id": "C276", "title": "The heat capacity is the slope of the energy and its correction the first order change of that slope", "statement": "The primitive heat capacity is -kb beta^2 times the derivative with beta of the mean energy of the frames reweighted with the ring polymer action; the PPI correction is its derivative with the strength of the perturbation.", "quantifier": "all sets of frames, numbers of beads and atoms, temperatures", "why_tests_cant": "A mixed second derivative over all ensembles.", "anchors": ["tools/py/heat_capacity_ppi.py:107-112", "tools/py/heat_capacity_ppi.py:201-236"]}
{"id": "C277", "title": "Units and columns of time and potential are read from the header of the properties", "statement": "The units are those of the last header lines that ask for time and potential with a unit in braces, the columns those of their values.", "quantifier": "all headers and lists of properties", "why_tests_cant": "Any header text.", "anchors": ["tools/py/energies_ppi.py:278-350", "ipi/engine/outputs.py:232-258"]}
{"id": "C278", "title": "Every PPI tool can read frames", "statement": "The calls of read_file have arguments it knows and take from the answer what it holds.", "quantifier": "all tools", "why_tests_cant": "A call that fails for every input, which no test makes.", "anchors": ["tools/py/total_energy_ppi.py:133-139", "tools/py/kinetic_energy_ppi.py:133-139", "tools/py/potential_energy_ppi.py:118", "tools/py/energy_ppi.py:97-102", "ipi/utils/io/__init__.py:310-336"]}
{"id": "C279", "title": "The vibrational partition function of the reactant is the exact one of the harmonic ring polymer", "statement": "For positive eigenvalues w2 the exponential of logQvib is the product of 1/(2 sinh(P arcsinh(betaP hbar w/2))); a zero eigenvalue contributes the number of beads; with more beads logQvib tends to the expression 2 sinh(beta hbar w/2) used for the transition state; a negative eigenvalue and nothing else stops the tool.", "quantifier": "all numbers of beads, temperatures, lists of eigenvalues", "why_tests_cant": "A product over any number of modes, and a limit.", "anchors": ["ipi/utils/tools/instanton_postproc.py:70-117", "ipi/utils/tools/instanton_postproc.py:302-317", "ipi/utils/tools/instanton_postproc.py:332-336"]}
{"id": "C280", "title": "The instanton partition functions agree with those of the reactant", "statement": "The matrix that is diagonalised for a rate is the Hessian of the closed ring (physical blocks of the mirrored beads plus springs); waves along the ring are its modes with the eigenvalues whose logarithms the reactant case sums; nzeros log P makes up exactly for the modes of translations and rotations, so that for a ring with the vibrations ws logQvib is that of the reactant with as many beads, less the unstable mode, plus log P; the rotational partition function of coinciding beads is that of one; the translational one is (M kb T/2 pi hbar^2)^(3/2).", "quantifier": "all half paths, numbers of beads and atoms, Hessians, sum rules", "why_tests_cant": "Sums over modes and beads of any number.", "anchors": ["ipi/utils/tools/instanton_postproc.py:27-44", "ipi/utils/tools/instanton_postproc.py:237-246", "ipi/utils/tools/instanton_postproc.py:353-379", "ipi/engine/motion/instanton.py:810-868", "ipi/utils/hesstools.py:62-79"]}
{"id": "C281", "title": "The printed action is the energy of the full path times betaP", "statement": "For a rate S1 + S2 is betaP times the sum over the closed mirrored ring of V - V0 and of the springs, and S2 = BN/(2 betaP hbar^2); for a splitting the same with the open chain, and the quantity that should be the same as S is so exactly if S1 = S2.", "quantifier": "all half paths, potentials, masses, temperatures", "why_tests_cant": "Any number of beads.", "anchors": ["ipi/utils/tools/instanton_postproc.py:47-52", "ipi/utils/tools/instanton_postproc.py:383-388", "ipi/utils/tools/instanton_postproc.py:435-443"]}
{"id": "C282", "title": "The tunnelling splitting uses the frequencies of the minimum", "statement": "Read as a line of frequencies, the denominator of phi is the product of the frequencies of chains between fixed ends, which is sinh(2(P+1)u)/sinh(2u) for each mode; the matrix element is -hbar sqrt(S/2 pi hbar) exp(-S/hbar) times that product over the product of the instanton's frequencies. The file that the tool itself writes for this purpose gives it.", "quantifier": "all lists of frequencies, numbers of beads, temperatures", "why_tests_cant": "A product over any number of modes.", "anchors": ["ipi/utils/tools/instanton_postproc.py:101-113", "ipi/utils/tools/instanton_postproc.py:313-317", "ipi/utils/tools/instanton_postproc.py:422-458", "ipi/utils/tools/instanton_postproc.py:549-557"]}
{"id": "C283", "title": "What the post-processing tool refuses", "statement": "It goes on exactly for a nonzero temperature, sum rules poly, crystal or none, one bead for reactant and TS, a number of beads for the reactant, a temperature within 2 K of the checkpoint's and a mode that is rate, or splitting with a file of frequencies; deleting listed atoms leaves as many as it counts.", "quantifier": "all arguments", "why_tests_cant": "All combinations of arguments.", "anchors": ["ipi/utils/tools/instanton_postproc.py:55-67", "ipi/utils/tools/instanton_postproc.py:149-168", "ipi/utils/tools/instanton_postproc.py:184-194", "ipi/utils/tools/instanton_postproc.py:230-275"]}
{"id": "C284", "title": "Interpolated instantons", "statement": "With the same number of beads nothing changes, paths and Hessians that do not depend on the bead stay, the centroid of the ring is kept, the old beads are recovered by contracting a longer ring, Hessian blocks stay symmetric; the half path that is written is half of the interpolated ring.", "quantifier": "all half paths, Hessians, numbers of beads", "why_tests_cant": "Any number of beads.", "anchors": ["ipi/utils/tools/instanton_interpolation.py:78-80", "ipi/utils/tools/instanton_interpolation.py:157-177", "ipi/utils/nmtransform.py:72-104"]}
{"id": "C285", "title": "Resampling of the string", "statement": "Resampling goes on exactly for three beads or more with no two neighbours at the same place, keeps the end points, and puts the images on the natural cubic spline through the old ones; a straight path becomes equidistant with tangents along it. In general the images are equidistant along the spline.", "quantifier": "all paths, numbers of beads and coordinates", "why_tests_cant": "The spline solves a linear system of any size.", "anchors": ["ipi/engine/motion/stringmep.py:1167-1222", "ipi/engine/motion/stringmep.py:1225-1270"]}
{"id": "C286", "title": "Forces on the string", "statement": "Tangents are unit vectors unless the derivative vanishes; the gradient of an image has no part along the tangent, is minus the force across it, and vanishes exactly where the force lies along the path; the climbing image feels the force with its part along the path reversed; the energy is that of the inner beads.", "quantifier": "all tangents, forces, dimensions", "why_tests_cant": "Any number of coordinates.", "anchors": ["ipi/engine/motion/stringmep.py:78-103", "ipi/engine/motion/stringmep.py:208-242"]}
{"id": "C287", "title": "Forces of the first string step belong to the path", "statement": "The forces and the gradient that the first step starts from are those of the resampled path.", "quantifier": "all paths and force fields", "why_tests_cant": "All force fields.", "anchors": ["ipi/engine/motion/stringmep.py:55-76", "ipi/engine/motion/stringmep.py:1119-1158"]}
{"id": "C288", "title": "Euler steps and convergence of the string", "statement": "An Euler step goes downhill by a thousandth of the gradient, or less so that the coordinate that moves most moves by biggest_step; the path is done, or climbing starts, exactly if the changes of energy and positions and the perpendicular force are all within the tolerances.", "quantifier": "all gradients, step sizes, tolerances", "why_tests_cant": "All gradients.", "anchors": ["ipi/engine/motion/stringmep.py:587-599", "ipi/engine/motion/stringmep.py:650-676"]}
{"id": "C289", "title": "A string optimisation can be set up and runs through its stages", "statement": "With the attributes that it reads a string stage takes Hessians of the right sizes or none and refuses others; finished, path and end point stages do what they should; a climbing image is moved by the optimisers.", "quantifier": "all modes, stages, sizes of Hessians, numbers of fixed coordinates", "why_tests_cant": "All combinations.", "anchors": ["ipi/engine/motion/stringmep.py:181-206", "ipi/engine/motion/stringmep.py:350-432", "ipi/engine/motion/stringmep.py:940-1017", "ipi/engine/motion/stringmep.py:1095-1164"]}
{"id": "C290", "title": "Interpolated paths keep their ends and are straight between two geometries", "statement": "The first and last image are the first and last geometry; two geometries, or any number on a line, give equidistant images on the line for both orders; with order 1 image b lies on the broken line through the geometries, at the length b/(n-1) of the whole. With order 3 the images are equidistant along the spline.", "quantifier": "all geometries, numbers of images and atoms, orders", "why_tests_cant": "Any number of geometries and images.", "anchors": ["tools/py/neb_interpolate.py:47-116", "tools/py/neb_interpolate.py:425-449"]}
{"id": "C291", "title": "Fixed atoms and the dry run of the interpolation", "statement": "Indices of active atoms outside the system are refused; atoms that are not active keep the positions of their own image if the number of images stays, else all take those of the first; active atoms keep both end points. The output is written exactly if --dry was not asked for.", "quantifier": "all lists of active atoms, geometries, numbers of images; all texts after --dry", "why_tests_cant": "All lists and texts.", "anchors": ["tools/py/neb_interpolate.py:385-407", "tools/py/neb_interpolate.py:425-449", "tools/py/neb_interpolate.py:203-208"]}
{"id": "C292", "title": "Levels of messages", "statement": "After a level is set a message is shown exactly if its own level is not beyond it; unknown names are refused; once locked no request changes the level; a restart sets the level that was there.", "quantifier": "all levels, names, sequences of requests", "why_tests_cant": "All texts and sequences.", "anchors": ["ipi/utils/messages.py:24-103", "ipi/inputs/simulation.py:229-242"]}
{"id": "C293", "title": "Identification of the code", "statement": "A checked out branch with a reference of its own gives the last part of its name and its commit, a detached head its commit; the address is the one of the configuration. The identification can always be printed.", "quantifier": "all contents of the repository files", "why_tests_cant": "All texts.", "anchors": ["ipi/utils/messages.py:109-181", "ipi/utils/messages.py:217-268"]}
{"id": "C294", "title": "The comment of a checkpoint is well formed", "statement": "With parts that hold no # the comment at the head of a checkpoint is well formed XML exactly if no part has two hyphens in a row. It is well formed whatever the directory, machine and branch.", "quantifier": "all versions, addresses, branches, commits, machines, directories, dates", "why_tests_cant": "All texts.", "anchors": ["ipi/engine/outputs.py:38-72", "ipi/utils/messages.py:217-268"]}
{"id": "C295", "title": "Force field inputs reach the force field", "statement": "Every field that the input of a force field has becomes the attribute of the force field that is built, as given (a locked matching asks for an exit on disconnection; sockets must be threaded). No field is ignored.", "quantifier": "all twelve classes of force fields, all field values", "why_tests_cant": "All values of all fields of all classes.", "anchors": ["ipi/inputs/forcefields.py:131-166", "ipi/inputs/forcefields.py:295-360", "ipi/inputs/forcefields.py:432-451", "ipi/inputs/forcefields.py:502-531", "ipi/inputs/forcefields.py:577-598", "ipi/inputs/forcefields.py:642-660", "ipi/inputs/forcefields.py:726-748", "ipi/inputs/forcefields.py:835-865", "ipi/inputs/forcefields.py:888-902", "ipi/inputs/forcefields.py:1001-1073", "ipi/inputs/forcefields.py:1164-1194", "ipi/inputs/forcefields.py:1278-1334", "ipi/engine/forcefields.py:834", "ipi/engine/forcefields.py:917-929"]}
{"id": "C296", "title": "Force fields survive a restart", "statement": "A force field built from an input is built the same from what a checkpoint stores of it, and each kind of force field is stored under its own tag. A committee whose input was accepted can be written to a checkpoint.", "quantifier": "all classes, field values and lists of committee members", "why_tests_cant": "All values and lists.", "anchors": ["ipi/inputs/forcefields.py:131-166", "ipi/inputs/forcefields.py:926-934", "ipi/inputs/forcefields.py:1001-1047", "ipi/inputs/simulation.py:250-308", "ipi/utils/inputvalue.py:293-295"]}
{"id": "C297", "title": "Checks of socket inputs", "statement": "A socket input passes its checks exactly if the port is within 1-65535, the slots within 1-5 and latency and timeout are not negative.", "quantifier": "all ports, slots, latencies, timeouts", "why_tests_cant": "All values.", "anchors": ["ipi/inputs/forcefields.py:362-383"]}
{"id": "C298", "title": "Thermostat inputs", "statement": "The thermostat that is built has the parameters that its input gives for the mode, and is built the same from what a checkpoint stores of it, also several together. The checks pass exactly if the time constants are positive (not negative for cl). An input with an allowed mode that passes its checks is built.", "quantifier": "all inputs of thermostats, nested ones included", "why_tests_cant": "All values and lists.", "anchors": ["ipi/inputs/thermostats.py:47-304", "ipi/inputs/thermostats.py:306-338", "ipi/inputs/thermostats.py:341-386", "ipi/engine/thermostats.py:1229-1239"]}
{"id": "C299", "title": "Barostat inputs", "statement": "A barostat is built exactly if a fixed volume goes with the flexible mode and no fixed diagonal entry, isotropic modes have no fixed entries, the names of fixed entries are known and an anisotropic one has a reference cell; it has the given parameters, and is built the same from what a checkpoint stores of it.", "quantifier": "all inputs of barostats", "why_tests_cant": "All values and lists.", "anchors": ["ipi/inputs/barostats.py:110-208", "ipi/engine/barostats.py:33-62"]}
{"id": "C300", "title": "Exchange, metadynamics and driving: inputs and restarts", "statement": "What is built for a mode has the fields of its input and is built the same from a checkpoint, also several together; the replica indices of a checkpoint are kept when bound again, and refused for another number of systems; exactly the named biases are updated. No allowed mode is ignored.", "quantifier": "all inputs, permutations of systems, lists of biases", "why_tests_cant": "All values and lists.", "anchors": ["ipi/inputs/smotion/smotion.py:49-154", "ipi/inputs/smotion/remd.py:36-85", "ipi/inputs/smotion/metad.py:36-71", "ipi/inputs/smotion/dmd.py:38-59", "ipi/engine/smotion/remd.py:62-92", "ipi/engine/smotion/metad.py:22-57", "ipi/engine/smotion/dmd.py:29-54"]}
{"id": "C301", "title": "Reading a checkpoint tag", "statement": "A checkpoint tag whose attributes can be read has the last value given for each, or the default, and the step of its text, zero if it is empty. A tag with an attribute that cannot be read is refused.", "quantifier": "all lists of attributes and texts", "why_tests_cant": "All lists.", "anchors": ["ipi/inputs/outputs.py:293-393", "ipi/utils/inputvalue.py:324-348", "ipi/utils/inputvalue.py:1150-1160"]}
{"id": "C302", "title": "Lists of outputs are stored in order", "statement": "Whatever was stored before, a list of outputs is stored entry by entry, in order, each under the tag of its kind.", "quantifier": "all lists of outputs and earlier entries", "why_tests_cant": "All lists.", "anchors": ["ipi/inputs/outputs.py:433-478"]}
{"id": "C303", "title": "What the entries of an initialize block stand for", "statement": "Entries with an allowed mode are queued in order. A file stands for positions with its units, masses without units, labels, the cell with the cell units and, for a checkpoint, momenta. Other entries stand for themselves. A checkpoint with units is refused, anything else is accepted.", "quantifier": "all lists of entries", "why_tests_cant": "All lists of entries, modes and units.", "anchors": ["ipi/inputs/initializer.py:109-123", "ipi/inputs/initializer.py:234-250", "ipi/inputs/initializer.py:299-354", "ipi/inputs/initializer.py:480-521"]}
{"id": "C304", "title": "Cells given by numbers", "statement": "A cell is read from exactly nine entries, three lengths or three lengths and three angles, other sizes are refused. The result has nine entries and is upper triangular; the entries on and above the diagonal are those given, the box is rectangular with the lengths given, or has the lengths and angles in degrees given.", "quantifier": "all lists of numbers; for angles: those of a box", "why_tests_cant": "All numbers.", "anchors": ["ipi/inputs/initializer.py:299-354", "ipi/utils/mathtools.py:222-245"]}
{"id": "C305", "title": "Normal modes and their bosons survive a restart", "statement": "Binding normal modes keeps every option and turns the bosons into indices: those given, or all atoms with one of the labels. It fails exactly if an index or label belongs to no atom. A checkpoint of what was bound stores indices and, bound again with the same number of atoms and time step, gives the same normal modes even if the atoms are named differently. A copy differs at most in the frequencies.", "quantifier": "all options, lists of bosons, numbers and names of atoms", "why_tests_cant": "All inputs, chains of bind, store and bind.", "anchors": ["ipi/inputs/normalmodes.py:109-126", "ipi/inputs/normalmodes.py:218-240", "ipi/engine/normalmodes.py:80-147", "ipi/engine/normalmodes.py:149-172", "ipi/engine/normalmodes.py:407-435"]}
{"id": "C306", "title": "Lists of force components survive a restart", "statement": "Whatever was stored before, a list of force components is stored entry by entry in order, and is fetched as it was; it is refused exactly if some component has a negative number of beads.", "quantifier": "all lists of components and earlier entries", "why_tests_cant": "All lists.", "anchors": ["ipi/inputs/forces.py:98-194", "ipi/engine/forces.py:287-327"]}
{"id": "C307", "title": "Ensembles survive a restart", "statement": "Bias and Hamiltonian weights that are not given are one for every component, given ones are kept. A checkpoint of a bound ensemble gives the same ensemble, which binding again does not change.", "quantifier": "all ensembles with components the check accepts", "why_tests_cant": "All ensembles.", "anchors": ["ipi/inputs/ensembles.py:112-150", "ipi/engine/ensembles.py:72-139", "ipi/engine/ensembles.py:200-204"]}
{"id": "C308", "title": "Force field blocks written for scripts", "statement": "A direct force field is written if a known potential is given, with the name, the potential and the parameters. A socket is written if an address and, for an internet socket, a port are given, and is read back with the name, mode, address and port given. Anything else is a ValueError.", "quantifier": "all names, modes, parameters, potentials, addresses and ports", "why_tests_cant": "All arguments; the test of unix sockets only looks at the text.", "anchors": ["ipi/scripting/templates.py:134-176", "ipi/inputs/forcefields.py:187-266"]}
{"id": "C309", "title": "Dynamics blocks written for scripts", "statement": "Constant temperature dynamics has the time step given and the thermostat given, or by default a stochastic velocity rescaling thermostat (global PILE with lambda one half for path integrals) with a time constant of ten time steps.", "quantifier": "all time steps and thermostats", "why_tests_cant": "All time steps.", "anchors": ["ipi/scripting/templates.py:179-209"]}
{"id": "C310", "title": "Simulations written for scripts", "statement": "There is a bead for each structure with its positions; names, cell and masses are those of the first structure. With a temperature, the ensemble and the initial velocities have it, otherwise there is neither. Forces refer to the force field given, the outputs are those given or the default, with the prefix if one is given. Masses set for the structure are used, otherwise those of the elements.", "quantifier": "all structures, force fields, temperatures, outputs and prefixes", "why_tests_cant": "All arguments.", "anchors": ["ipi/scripting/templates.py:36-131"]}
{"id": "C311", "title": "Cells of structures read with ASE", "statement": "The cell returned is upper triangular with a positive diagonal. Lengths and angles of the cell and the place of every atom relative to the lattice vectors are those of the structure.", "quantifier": "all structures with non-zero first two lattice vectors", "why_tests_cant": "All cells and positions; rotations are real.", "anchors": ["ipi/utils/io/backends/io_ase.py:117-128"]}
{"id": "C312", "title": "Masses of structures read with ASE", "statement": "Masses are those of the structure in atomic units. A structure is refused exactly if it has a column called mass and none called masses.", "quantifier": "all structures", "why_tests_cant": "All lists of columns.", "anchors": ["ipi/utils/io/backends/io_ase.py:109-115", "ipi/utils/io/backends/io_ase.py:130"]}
{"id": "C313", "title": "Anharmonic corrections of self consistent phonons", "statement": "The correction to the harmonic energies lies between the lowest and the highest difference of potential and harmonic energy of the samples. For samples of one iteration it is their mean, with the unbiased variance over the number of samples as squared error. For a harmonic potential it is the lowest potential energy with no error, and the first line reports no correction. Samples are weighted by the ratio of the densities they are used for and drawn from, and batches weigh at most one.", "quantifier": "all numbers of batches, samples, energies and exponents", "why_tests_cant": "Real weights; all numbers of samples.", "anchors": ["tools/py/get_Ascp.py:125-176"]}
{"id": "C314", "title": "Harmonic energies of self consistent phonons", "statement": "The reported energy is the derivative by beta of beta times the reported free energy, without the corrections. Every line reports both, both less those of the first iteration, and one error.", "quantifier": "all temperatures and positive frequencies", "why_tests_cant": "Derivatives of real functions.", "anchors": ["tools/py/get_Ascp.py:96-100", "tools/py/get_Ascp.py:178-192"]}
{"id": "C315", "title": "Report of self consistent phonons", "statement": "There is a line for each iteration that has files, up to the largest number asked for, relative to the first. The tool then ends without an error, also for calculations without a sum rule.", "quantifier": "all calculations", "why_tests_cant": "All numbers of iterations.", "anchors": ["tools/py/get_Ascp.py:49-55", "tools/py/get_Ascp.py:65-103", "tools/py/get_Ascp.py:133-146"]}
{"id": "C316", "title": "Converting a trajectory keeps numbers, units and labels", "statement": "A frame that i-PI wrote is converted from xyz to xyz with the numbers, the quantity and the units that it has. In pdb files anything but lengths is refused, and cells without units are in angstrom.", "quantifier": "all quantities with a dimension, units made of letters and underscores that exist for it, titles without braces, values and cells", "why_tests_cant": "All titles, values and cells.", "anchors": ["tools/py/a2b.py:30-106"]}
{"id": "C317", "title": "Converting structures without a label", "statement": "A file that can be read, such as an xyz file whose comment does not name a quantity, can be converted.", "quantifier": "all files", "why_tests_cant": "All comments.", "anchors": ["tools/py/a2b.py:56-72"]}
{"id": "C318", "title": "Ring polymers in pdb files", "statement": "Atom records of all beads are numbered from one without gaps, and each atom of each bead has one, with its label and position. With more than one bead, bonds are between neighbouring beads of one atom and between its first and last bead; every atom record has two bonds. Bonds are not repeated.", "quantifier": "all numbers of atoms and beads", "why_tests_cant": "All numbers of atoms and beads.", "anchors": ["ipi/utils/io/backends/io_pdb.py:22-79"]}
{"id": "C319", "title": "Merging the trajectories of beads", "statement": "Frame k printed is made of frame k of each file, as long as all files have one, with labels and cell of the last file and numbers in angstrom; nothing is printed for frames that some file lacks, and the tool ends without an error.", "quantifier": "all numbers of files, frames and atoms", "why_tests_cant": "All files.", "anchors": ["tools/py/mergebeadspdb.py:24-50"]}
{"id": "C320", "title": "Frames used by radial distribution functions", "statement": "The files written are those of all frames after the skipped ones.", "quantifier": "all trajectories and numbers of skipped frames", "why_tests_cant": "All lengths of trajectories.", "anchors": ["tools/py/rdf_ppi.py:125-248"]}
{"id": "C321", "title": "Values of radial distribution functions", "statement": "The function is the mean number of neighbours per bead in a shell over that in a uniform density in the last cell, and the shells fill the range. The correction is the covariance of neighbours and squared forces and the derivative term, and vanishes for squared forces that do not fluctuate without derivative terms.", "quantifier": "all trajectories, bins, ranges, beads and positive temperatures", "why_tests_cant": "Real numbers; all lengths of trajectories.", "anchors": ["tools/py/rdf_ppi.py:95-101", "tools/py/rdf_ppi.py:200-244"]}
{"id": "C322", "title": "Inputs converted to JSON and back", "statement": "An input converted from XML to JSON and read again has the attributes, the texts without blanks around them, and the children that it had, in their order, at every level.", "quantifier": "all inputs", "why_tests_cant": "Trees of any depth and width.", "anchors": ["ipi/utils/io/inputs/io_json.py:90-141", "ipi/utils/io/inputs/io_json.py:144-185", "tools/py/convert-input.py:38-53"]}
{"id": "C323", "title": "Content of a simulation as JSON input", "statement": "A JSON input with a simulation, and one that is only the content of the simulation, are read as the same input.", "quantifier": "all simulations", "why_tests_cant": "Trees of any depth and width.", "anchors": ["ipi/utils/io/inputs/io_json.py:54-87"]}
{"id": "C324", "title": "Old defaults written into inputs", "statement": "Every ffsocket at any level that does not say so gets pbc True, and one that does keeps what it says. All other attributes, all texts and the place and name of every element are kept, and applying the tool again changes nothing.", "quantifier": "all inputs", "why_tests_cant": "Trees of any depth and width.", "anchors": ["tools/py/default_input_changes_2.0_to_3.0.py:23-44"]}
