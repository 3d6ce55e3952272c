{
 "claims": [
  {
   "property": "C01",
   "status": "proved",
   "theorems": [
    "depend_read_is_fresh"
   ],
   "note": "All acyclic networks, all function bodies, all histories of reads and accepted writes. Single thread; weak references alive. See C61 for functions that skip declared dependencies."
  },
  {
   "property": "C02",
   "status": "proved",
   "theorems": [
    "read_evaluates_at_most_once",
    "second_read_is_free",
    "no_reevaluation_without_change",
    "assignment_evaluates_nothing"
   ],
   "note": "Evaluation counts through a ghost log of function calls."
  },
  {
   "property": "C03",
   "status": "proved",
   "theorems": [
    "synchronised_representations_agree"
   ],
   "note": "Whole-array writes; element writes through stale references are C62."
  },
  {
   "property": "C04",
   "status": "partial",
   "theorems": [
    "rejected_assignment_has_no_effect_refuted",
    "rejected_assignment_has_no_effect_partial"
   ],
   "note": "The property is false of the code: set stores the value before update_man raises. Proved: harmless when the value was waiting to be recomputed."
  },
  {
   "property": "C05",
   "status": "partial",
   "theorems": [
    "view_write_is_parent_write",
    "view_of_computed_refuses_writes_refuted"
   ],
   "note": "Equality of states proved for primitive and synchronised arrays; false for computed arrays (views accept writes)."
  },
  {
   "property": "C06",
   "status": "partial",
   "theorems": [
    "nm_quantities_follow_inputs_partial",
    "nm_factor_follows_temperature_refuted",
    "time_step_factors_follow_refuted"
   ],
   "note": "Proved for RPMD mode; false for nm_factor in the other modes, for qdt_on_m and inmts (undeclared dependencies)."
  },
  {
   "property": "C07",
   "status": "proved",
   "theorems": [
    "request_always_accounted",
    "request_never_lost",
    "request_leaves_only_when_done",
    "polling_pass_is_a_history"
   ],
   "note": "Consolidated mode, every batch size and matching mode, any interleaving of main-thread and network events; the polling pass as written is shown to be such a history."
  },
  {
   "property": "C08",
   "status": "proved",
   "theorems": [
    "client_has_one_job"
   ],
   "note": "Consolidated mode."
  },
  {
   "property": "C09",
   "status": "proved",
   "theorems": [
    "done_result_is_own",
    "done_result_is_final"
   ],
   "note": "Consolidated mode, honest clients (a client answers for the structures last sent to it)."
  },
  {
   "property": "C10",
   "status": "partial",
   "theorems": [
    "vanished_client_requests_requeued",
    "legacy_lost_client_requeued_partial",
    "legacy_timeout_loses_request_refuted"
   ],
   "note": "Proved in consolidated mode. False of the legacy mode: a timed-out request stays Running for ever."
  },
  {
   "property": "C11",
   "status": "proved",
   "theorems": [
    "done_result_is_own",
    "batch_message_decodes",
    "driver_round_trip_batch"
   ],
   "note": "For every batch size and number of waiting requests; message contents are in the wire model."
  },
  {
   "property": "C12",
   "status": "partial",
   "theorems": [
    "read_any_fragmentation",
    "force_message_decodes",
    "batch_message_decodes",
    "legacy_payload_decodes",
    "split_status_reply_refuted",
    "split_legacy_header_refuted"
   ],
   "note": "Proved for every force payload. False for 12-byte headers read with a single recv (status enquiry, legacy FORCEREADY)."
  },
  {
   "property": "C13",
   "status": "proved",
   "theorems": [
    "force_message_decodes",
    "batch_message_decodes",
    "truncated_message_disconnects",
    "truncated_batch_disconnects",
    "legacy_payload_decodes",
    "malformed_reply_not_delivered"
   ],
   "note": "All messages of the documented protocol, any fragmentation, any scratch buffer."
  },
  {
   "property": "C14",
   "status": "partial",
   "theorems": [
    "dispatch_takes_oldest_compatible",
    "lock_mode_client_keeps_replica",
    "lock_mode_batched_refuted",
    "waiting_list_in_order_of_arrival"
   ],
   "note": "Proved without batching. False with batch_size > 1, where the code ignores the policy."
  },
  {
   "property": "C15",
   "status": "partial",
   "theorems": [
    "dispatch_loop_terminates",
    "dispatch_pass_progress_partial",
    "legacy_dispatch_never_ends",
    "legacy_poll_hangs_refuted",
    "lock_mode_starves_refuted",
    "hung_client_blocks_the_pass_refuted"
   ],
   "note": "Consolidated mode, auto and any matching: the dispatch phase ends and makes progress. False in legacy mode (livelock), lock mode (starvation) and for the collect loop with a silent client."
  },
  {
   "property": "C16",
   "status": "proved",
   "theorems": [
    "direct_request_never_lost",
    "direct_evaluates_exactly_once",
    "direct_flushes_incomplete_batch",
    "direct_batch_sizes"
   ],
   "note": "For drivers that return one result per structure."
  },
  {
   "property": "C17",
   "status": "partial",
   "theorems": [
    "too_few_results_hang_refuted",
    "driver_exception_hangs_refuted"
   ],
   "note": "False of the code: zip drops the requests without a result, which stay Running for ever; an exception of the driver does the same."
  },
  {
   "property": "C18",
   "status": "partial",
   "theorems": [
    "get_all_reads_final_result",
    "mark_last_reads_final_result",
    "done_request_has_offset_removed",
    "committee_may_miss_offset_refuted"
   ],
   "note": "False of the code for a committee or rotation average over a threaded FFEval, which sets Done before removing the offset; proved for every reader that joins the evaluating thread (ForceBead.get_all) and for every force field that sets Done last."
  },
  {
   "property": "C19",
   "status": "partial",
   "theorems": [
    "committee_done_is_final",
    "rotations_done_is_final_partial",
    "rotations_request_lost_refuted",
    "composite_poll_progress"
   ],
   "note": "False of the code for FFRotations (status set to Running after the request is visible to the polling thread); proved for FFCommittee, and for FFRotations once queue() has returned."
  },
  {
   "property": "C20",
   "status": "partial",
   "theorems": [
    "reads_are_fresh_partial",
    "library_reads_are_fresh",
    "early_request_gives_stale_forces_refuted",
    "mts_virial_leaves_request_refuted"
   ],
   "note": "False of the code if positions change between queue() and the read; proved when they do not, which covers the library's own combine functions unless a component has no mts_weights."
  },
  {
   "property": "C21",
   "status": "partial",
   "theorems": [
    "active_atoms_restricted",
    "all_atoms_by_default",
    "too_many_or_last_out_of_range_rejected",
    "out_of_range_not_rejected_refuted",
    "permuted_list_misassigns_forces_refuted",
    "second_system_truncated_refuted",
    "negative_indices_from_the_end",
    "indices_out_of_range_refused",
    "active_atoms_ignored_refuted"
   ],
   "note": "Proved for proper choices of fewer than all atoms and for the default; false of the code for an out-of-range index that is not last, for a permutation of all atoms, for a second system of another size, and for the MPI force field, which ignores the list."
  },
  {
   "property": "C22",
   "status": "proved",
   "theorems": [
    "committee_potential_is_mean",
    "committee_force_is_mean",
    "committee_rescaling",
    "committee_force_is_gradient",
    "baseline_mixing",
    "committee_members_rescaled",
    "committee_without_forces",
    "committee_baseline_needs_forces"
   ],
   "note": "FFCommittee.gather over the reals; all numbers of members and coordinates."
  },
  {
   "property": "C23",
   "status": "proved",
   "theorems": [
    "rotations_exact_for_equivariant",
    "rotations_weight_scale",
    "rotations_force_is_gradient"
   ],
   "note": "Quadrature points and weights arbitrary (orthogonal matrices, non-zero total weight)."
  },
  {
   "property": "C24",
   "status": "proved",
   "theorems": [
    "lj_total_force_zero",
    "dmd_total_force_zero",
    "lj_newton",
    "minimum_image_antisymmetric",
    "dmd_coupling_per_pair"
   ],
   "note": "Lennard-Jones and oscillating pair potential; real arithmetic."
  },
  {
   "property": "C25",
   "status": "proved",
   "theorems": [
    "total_force_is_declared",
    "total_potential_is_declared",
    "total_virial_is_declared",
    "levels_add_up",
    "virial_levels_add_up",
    "unequal_levels_refused",
    "idle_components_do_not_contribute",
    "total_force_is_gradient",
    "idle_components_never_run",
    "forces_without_levels_applied_refuted"
   ],
   "note": "Levels sum to the declared combination for any number of components, levels and (contracted) beads; the total force is minus the gradient of the total potential; zero-weight components are never queued and do not contribute. A component with an empty list of level weights (not reachable with the input defaults) loses its force."
  },
  {
   "property": "C26",
   "status": "partial",
   "theorems": [
    "contraction_centroid",
    "contraction_roundtrip",
    "contraction_adjoint",
    "contracted_force_is_gradient",
    "contraction_modes",
    "open_path_expansion_refuted",
    "open_path_force_refuted"
   ],
   "note": "False of the code when some atoms are open paths: nm_rescale.b2tob1 then expands closed atoms with the open-path matrix, so expanding and contracting is not the identity and forces on closed atoms are not the gradient. Proved for all n, n' without open paths (and for open columns); the centroid is preserved always."
  },
  {
   "property": "C27",
   "status": "partial",
   "theorems": [
    "component_extras_unchanged_refuted",
    "combining_twice_refuted",
    "only_first_raw_changes",
    "component_extras_unchanged_partial",
    "promoted_extras_are_summed",
    "raw_extras_are_joined",
    "other_extras_last_wins",
    "combined_extras_exist"
   ],
   "note": "False of the code: combining appends to the 'raw' list of the first contributing component in place, so a second combination repeats the strings. Proved: the value of the first combination, and that nothing else changes."
  },
  {
   "property": "C28",
   "status": "proved",
   "theorems": [
    "nm_roundtrip",
    "nm_roundtrip_modes",
    "nm_norm",
    "nm_centroid",
    "fft_is_matrix",
    "fft_is_matrix_open"
   ],
   "note": "Matrices and FFT path, closed and open paths, every n >= 1, exact arithmetic."
  },
  {
   "property": "C29",
   "status": "partial",
   "theorems": [
    "propagator_symplectic",
    "exact_steps_compose",
    "exact_step_zero",
    "free_step_back",
    "exact_step_solves_hamilton",
    "centroid_step_solves_hamilton",
    "free_step_conserves_energy",
    "cayley_step_is_midpoint",
    "cayley_dynamical_mass_refuted",
    "open_path_energy_refuted"
   ],
   "note": "False of the code in two cases: the Cayley propagator uses the time step multiplied by sqrt(nm_factor) (correct only for rpmd); with open paths and mass factors the reported kinetic energy uses the closed factors, so energy is not conserved. Exact propagator proved in full; Cayley: determinant, energy, reversibility, and the exact rule it implements."
  },
  {
   "property": "C30",
   "status": "proved",
   "theorems": [
    "spring_energy_is_bead_springs",
    "spring_energy_is_vpath",
    "spring_force_is_fpath",
    "spring_force_is_gradient",
    "duplicate_open_path_refuted"
   ],
   "note": "All bead numbers, closed and open paths listed without repetition; an atom listed twice in open_paths is counted twice (duplicate_open_path_refuted)."
  },
  {
   "property": "C31",
   "status": "proved",
   "theorems": [
    "schedule_is_respa",
    "nve_schedule_symmetric",
    "nvt_schedule_symmetric",
    "baoab_halves_mirror",
    "sc_schedule_symmetric",
    "schedule_covers_step",
    "baoab_thermostat_in_the_middle",
    "kick_times",
    "thermostat_covers_step"
   ],
   "note": "For all factor lists (positive factors): the generated calls are the recursive RESPA schedule, palindromic around constraint applications, drifts and kicks of each level and thermostat steps add up to dt. The Suzuki-Chin step is palindromic up to constraint applications."
  },
  {
   "property": "C32",
   "status": "partial",
   "theorems": [
    "nve_step_reversible",
    "nve_steps_reversible",
    "nve_step_keeps_constraints",
    "nve_frozen_reversible_refuted"
   ],
   "note": "False of the code when frozen atoms have spread beads (their momentum is thrown away). Proved for every state that satisfies the constraints: all force functions, bias, nestings, exact/Cayley/bab propagators, fixcom or frozen atoms, any number of steps."
  },
  {
   "property": "C33",
   "status": "partial",
   "theorems": [
    "frozen_at_rest",
    "others_not_touched",
    "no_total_momentum",
    "constraint_energy_accounted",
    "both_constraints_refuted",
    "duplicate_frozen_refuted"
   ],
   "note": "Proved for fixcom or frozen atoms separately and for distinct frozen coordinates. False when both are requested together (the input file rules this out) and when an atom is listed twice."
  },
  {
   "property": "C34",
   "status": "proved",
   "theorems": [
    "langevin_energy_accounted",
    "svr_energy_accounted",
    "svr_factor_real",
    "gle_energy_accounted",
    "cl_energy_accounted",
    "ffl_energy_accounted",
    "composite_energy_accounted",
    "pile_l_energy_accounted",
    "pile_g_energy_accounted",
    "restart_keeps_ethermo",
    "restart_keeps_ethermo_nmgleg",
    "step_keeps_thermostats"
   ],
   "note": "For every value of the random numbers (gamma draws non-negative). Real arithmetic; exp(-dt/tau) is never 0 there, so the division of the Langevin step by T^2 cannot fail, which it can in floating point for dt/tau above about 745."
  },
  {
   "property": "C35",
   "status": "partial",
   "theorems": [
    "wrapped_is_image",
    "wrapped_in_cell",
    "wrapping_idempotent",
    "array_wraps_each",
    "minimum_image_invariant_partial",
    "minimum_image_invariant_refuted"
   ],
   "note": "Wrapping is proved in full. False of the code for the minimum image exactly half-way between two images, where rounding to even makes the sign depend on the image; proved when no fractional difference is half-way."
  },
  {
   "property": "C36",
   "status": "proved",
   "theorems": [
    "abc_roundtrip",
    "cell_roundtrip",
    "abc2h_standard",
    "degrees",
    "volume_formula",
    "invert_is_inverse",
    "det_is_determinant"
   ],
   "note": ""
  },
  {
   "property": "C37",
   "status": "proved",
   "theorems": [
    "cholesky_square",
    "cholesky_square_iff",
    "cholesky_exact_pivots",
    "cholesky_triangular",
    "cholesky_lower_triangle",
    "cholesky_warning",
    "cholesky_spurious_warning",
    "cholesky_all_symmetric_refuted"
   ],
   "note": "cholesky_all_symmetric_refuted shows that the restriction to positive semi-definite matrices is needed."
  },
  {
   "property": "C38",
   "status": "partial",
   "theorems": [
    "logsumlog_partial",
    "logsumlog_equal",
    "logsumlog_negative",
    "logsumlog_refuted"
   ],
   "note": "False of the code whenever the larger number is negative: the relative sign is not used. Proved when the larger one is positive."
  },
  {
   "property": "C39",
   "status": "proved",
   "theorems": [
    "quat2rot_rotation",
    "euler_rotation",
    "euler_convention",
    "random_rotation_orthogonal",
    "rotations_keep_lengths"
   ],
   "note": ""
  },
  {
   "property": "C40",
   "status": "partial",
   "theorems": [
    "repindex_permutation",
    "rejected_restores",
    "accepted_swaps",
    "accepted_barostats",
    "swap_twice",
    "swap_defined",
    "swap_complete_partial",
    "swap_complete_refuted",
    "repindex_tracks_partial",
    "step_is_history",
    "swap_file_lines"
   ],
   "note": "False of the code only for external stresses that differ by less than 1e-10: they are not exchanged. Everything else is proved for all histories."
  },
  {
   "property": "C41",
   "status": "proved",
   "theorems": [
    "exchange_conserves",
    "accepted_conserves",
    "rejected_restores",
    "scaled_momenta_constant"
   ],
   "note": ""
  },
  {
   "property": "C42",
   "status": "partial",
   "theorems": [
    "initial_weights_used",
    "weights_frozen",
    "hamiltonian_exchange_refuted",
    "hamiltonian_exchange_always_accepted",
    "weights_switch_bias_off",
    "scaled_forces_never_used",
    "hamiltonian_forces_refuted",
    "explicit_bias_used_partial"
   ],
   "note": "False of the code: hweights is a plain attribute, so a swap never reaches the scaled components; has_bias is true only when the weights are all one."
  },
  {
   "property": "C43",
   "status": "proved",
   "theorems": [
    "cycle_energy_is_ring",
    "assertions_hold",
    "shifted_sum_in_range",
    "prefix_recursion",
    "suffix_recursion",
    "connection_doubly_stochastic"
   ],
   "note": "Real arithmetic; the shift by the minimum cancels and keeps the sum in [1, m], so the assertions never fail."
  },
  {
   "property": "C44",
   "status": "partial",
   "theorems": [
    "restart_file_is_on_trajectory_partial",
    "restarts_are_on_trajectory_partial",
    "exit_leaves_restart_file_partial",
    "run_ends",
    "checkpoints_are_right_partial",
    "exit_while_storing_refuted",
    "checkpoint_after_exit_refuted"
   ],
   "note": "Proved for every exit point (also in the middle of a step) and any number of interrupted runs, except exits asked for while the status is being stored and checkpoints written after the exit was asked for; false of the code for those two (witnesses given)."
  },
  {
   "property": "C45",
   "status": "partial",
   "theorems": [
    "cleanup_at_most_once_partial",
    "cleanup_completes_partial",
    "cleanup_twice_refuted",
    "nothing_after_failure",
    "unknown_status_refuted",
    "other_exception_refuted",
    "second_signal_refuted",
    "missing_control_refuted",
    "join_deadlock_refuted",
    "joins_end_partial",
    "monitor_never_waits",
    "no_self_wait"
   ],
   "note": "False of the code: two threads inside the check-then-set window of trigger both run the clean-up; proved when the check and the set are not separated by another request."
  },
  {
   "property": "C46",
   "status": "partial",
   "theorems": [
    "outputs_at_stride_partial",
    "clean_restart_continues_outputs_partial",
    "frames_are_right_partial",
    "no_frame_missing_partial",
    "crash_needs_zero_stride",
    "duplicate_frames_refuted",
    "duplicate_frames_safe_stride_refuted",
    "finished_frame_missing_refuted",
    "zero_stride_refuted"
   ],
   "note": "Proved for runs that return without an exit being asked for from outside; with one, frames are right and none is missing but some are written twice (refuted), the last frame of a motion that finishes is not written (refuted), and a stride of zero is accepted and crashes (refuted)."
  },
  {
   "property": "C47",
   "status": "partial",
   "theorems": [
    "killed_checkpoint_loses_nothing_partial",
    "killed_run_keeps_checkpoints",
    "completed_checkpoint_is_on_disk",
    "overwriting_run_keeps_older_files",
    "overwritten_checkpoint_lost_refuted"
   ],
   "note": "False of the code for overwrite mode after the first write of a process (witness); proved without overwriting, for the first write, and for the RESTART file."
  },
  {
   "property": "C48",
   "status": "partial",
   "theorems": [
    "backup_name_found",
    "open_backup_moves",
    "nothing_lost",
    "old_content_still_there",
    "open_backup_succeeds_partial",
    "processes_in_turn",
    "subdirectory_refuted",
    "race_loses_content_refuted"
   ],
   "note": "Proved for one process and any directory and sequence of openings that succeed; false of the code for two processes at once, and opening an existing file in a subdirectory fails (witnesses)."
  },
  {
   "property": "C49",
   "status": "partial",
   "theorems": [
    "xyz_round_trip",
    "xyz_frame_round_trip",
    "truncated_never_reported",
    "count_check_useless",
    "bad_line_reported",
    "truncated_trajectory",
    "truncated_refuted",
    "frames_dropped",
    "frames_dropped_refuted",
    "long_label_refuted",
    "empty_frame_refuted"
   ],
   "note": "False of the code: a frame cut short is never reported, since the atoms are counted by the loop over the announced number and the end of file ends the whole trajectory silently. Proved: well-formed frames come back, a line without three numbers is reported, what is lost when a file is cut."
  },
  {
   "property": "C50",
   "status": "partial",
   "theorems": [
    "pdb_atom_round_trip",
    "pdb_sign_lost",
    "pdb_frame_round_trip",
    "pdb_round_trip_partial",
    "pdb_sign_refuted",
    "pdb_digit_refuted",
    "pdb_unreadable_refuted"
   ],
   "note": "False of the code: the coordinates are read one column late, so a value that fills its field loses its sign or first digit, or makes the line unreadable. Proved for coordinates that leave the first column of the field blank."
  },
  {
   "property": "C51",
   "status": "partial",
   "theorems": [
    "list_round_trip",
    "tuple_round_trip",
    "bool_round_trip",
    "bool_read",
    "dict_round_trip",
    "list_empty_item_refuted",
    "list_quotes_refuted",
    "dict_string_type_refuted",
    "dict_last_item_counts",
    "dict_colon_needed"
   ],
   "note": "False of the code for all lists: a trailing empty item and quotes around an item are lost, and a string in a dictionary that looks like a number or a boolean changes type. Proved for all tuples of integers, booleans, lists whose items have no comma, bracket, outer blank or quote and whose last item is not empty, and dictionaries of integers, booleans, floats and strings that do not look like one of them."
  },
  {
   "property": "C52",
   "status": "partial",
   "theorems": [
    "unit_accepted_iff",
    "prefix_multiplies",
    "unit_round_trip",
    "unit_round_trip_back",
    "unknown_unit_rejected",
    "number_unit_refuted",
    "trailing_blank_refuted"
   ],
   "note": "False of the code for plain numbers, where any unit is accepted; a unit followed by a blank is rejected although the expression allows for it. Proved for every other family: which texts are accepted, their factor, both round trips, rejection of all others. The rows added when the ase package is present are not modelled."
  },
  {
   "property": "C53",
   "status": "partial",
   "theorems": [
    "key_args_unit",
    "key_unit_args",
    "key_args",
    "key_unit",
    "key_bare",
    "getkey_agrees",
    "stray_brace_refuted",
    "open_brace_refuted"
   ],
   "note": "Proved for all well-formed keys, in either order of arguments and unit. Malformed braces are not reported."
  },
  {
   "property": "C54",
   "status": "partial",
   "theorems": [
    "stored_comes_back",
    "reproducible",
    "seeded",
    "first_stream_same",
    "serial_fills",
    "one_thread_fills",
    "small_arrays_filled_partial",
    "long_arrays_untouched",
    "threads_spec",
    "parts_cover",
    "order_does_not_matter",
    "other_number_of_threads",
    "threaded_fill_refuted",
    "more_threads_refuted",
    "threaded_streams_advance"
   ],
   "note": "False of the code with threads: gfill_threaded writes into a flattened copy, so gvec returns uninitialised memory for arrays of at least 100 elements per thread (threaded_fill_refuted); a state continued with more threads than it was saved with depends on the clock (more_threads_refuted). Proved without threads and for short arrays; restoring the state reproduces the stream."
  },
  {
   "property": "C55",
   "status": "partial",
   "theorems": [
    "ramp_value",
    "ramp_ends",
    "ramp_increasing",
    "ramp_decreasing",
    "ramp_even",
    "ramp_restarts",
    "ramp_never_at_start",
    "ramp_start_refuted",
    "ramp_log_fails",
    "ramp_log_refuted",
    "step_sets_value_reached"
   ],
   "note": "False of the code at the beginning: the initial value is never set, the first step already sets the second point (ramp_start_refuted), and a logarithmic ramp from zero or between opposite signs fails (ramp_log_refuted). Proved: closed form, end point reached and kept, monotonic, even steps, restarts."
  },
  {
   "property": "C56",
   "status": "partial",
   "theorems": [
    "alchemy_keeps",
    "swap_keeps",
    "pick_ends",
    "pick_loops",
    "swap_conserved_partial",
    "swap_ends_refuted",
    "swap_conserved_refuted"
   ],
   "note": "Composition and energies are proved for all sequences. False of the code: a step never ends if the exchange list has atoms of one species only (swap_ends_refuted). With several beads, the spring energy that atom swaps change is left out of the accumulated energy (swap_conserved_refuted)."
  },
  {
   "property": "C57",
   "status": "partial",
   "theorems": [
    "accepted_system_complete",
    "zero_volume_refused",
    "too_early_refused",
    "thermal_needs_masses",
    "single_bead_refused",
    "out_of_range_refused",
    "other_atom_number_refused",
    "velocities_before_masses_refuted",
    "missing_positions_refuted",
    "mass_out_of_range_refuted",
    "label_out_of_range_refuted",
    "left_handed_cell_refuted"
   ],
   "note": "Zero volumes at the end, missing masses, labels and atoms, and commands that come too early are refused. False of the code for velocities before masses: the error is built but not raised, and positions and velocities are wiped (velocities_before_masses_refuted); missing positions and atom indices out of range for masses and labels pass as well."
  },
  {
   "property": "C58",
   "status": "partial",
   "theorems": [
    "every_rank_in_one_group",
    "group_no_larger_than_asked",
    "handshake_hears_every_group",
    "drivers_assigned_by_name",
    "startup_refused_iff",
    "assignment_ignores_arrival_order",
    "rank_serves_its_force_field",
    "lone_force_field_takes_all",
    "work_message_read_back",
    "result_message_read_back",
    "finished_request_has_its_result",
    "running_request_with_one_driver",
    "requests_move_forward",
    "every_request_finished",
    "lone_force_field_takes_others_drivers_refuted",
    "group_across_names_refuted",
    "mixed_batch_fails_refuted"
   ],
   "note": "Proved for two or more force fields and for all batches and interleavings. False of the code for one force field, which takes drivers launched for another name; for groups across names when mpi_id is not set; and a batch with structures of different size makes the poll fail."
  },
  {
   "property": "C59",
   "status": "partial",
   "theorems": [
    "opened",
    "replay_frame",
    "replay_restart",
    "replay_ends",
    "replay_ends_clean",
    "files_by_bead",
    "files_by_bead_refuted",
    "incomplete_block_refuted",
    "replay_automatic",
    "replay_units_twice",
    "replay_units_refuted"
   ],
   "note": "Step s loads block s, also after a restart, for one file and for one file per bead. False of the code at the end of a file with an incomplete block (incomplete_block_refuted), for files without bead numbers (files_by_bead_refuted), and for declared units, which are applied on top of those in the file (replay_units_refuted)."
  },
  {
   "property": "C60",
   "status": "proved",
   "theorems": [
    "multi_dt",
    "multi_com",
    "multi_fixed",
    "multi_fixed_defined",
    "multi_fixed_once",
    "multi_step",
    "multi_stops",
    "multi_part_without_status"
   ],
   "note": "For trees of motions of any depth."
  },
  {
   "property": "C61",
   "status": "partial",
   "theorems": [
    "skipped_dependency_stale_refuted"
   ],
   "note": "False of the code; depend_read_is_fresh gives the sufficient condition."
  },
  {
   "property": "C62",
   "status": "partial",
   "theorems": [
    "element_write_on_stale_array_refuted"
   ],
   "note": "False of the code."
  },
  {
   "property": "C63",
   "status": "partial",
   "theorems": [
    "reshape_keeps_freshness_refuted"
   ],
   "note": "False of the code."
  },
  {
   "property": "C64",
   "status": "partial",
   "theorems": [
    "wrong_size_reply_stops_service_refuted",
    "malformed_reply_not_delivered"
   ],
   "note": "False of the code: InvalidSize ends the polling thread."
  },
  {
   "property": "C65",
   "status": "partial",
   "theorems": [
    "driver_round_trip",
    "driver_round_trip_batch",
    "status_round_trip",
    "non_ascii_extra_refuted",
    "non_ascii_extra_leaves_bytes_refuted"
   ],
   "note": "Proved for ASCII extra strings and streams that do not split a header; false for extra strings with other characters."
  },
  {
   "property": "C66",
   "status": "partial",
   "theorems": [
    "committee_weights_ignored_refuted",
    "committee_weights_counted"
   ],
   "note": "False of the code: ffweights is stored by the constructor and never read."
  },
  {
   "property": "C67",
   "status": "partial",
   "theorems": [
    "committee_extras_dropped_refuted"
   ],
   "note": "False of the code: only the last member's extras survive."
  },
  {
   "property": "C68",
   "status": "partial",
   "theorems": [
    "flattened_committee_forces_refused"
   ],
   "note": "False of the code: the metatomic driver flattens the committee forces, which the length check of gather refuses for every system."
  },
  {
   "property": "C69",
   "status": "partial",
   "theorems": [
    "lj_force_is_gradient",
    "dmd_force_is_gradient",
    "dmd_virial",
    "debye_force_is_gradient",
    "debye_asymmetric_refuted"
   ],
   "note": "Proved for Lennard-Jones, the oscillating potential and the harmonic crystal with symmetric Hessian; false for a Hessian that is not symmetric, which is accepted."
  },
  {
   "property": "C70",
   "status": "partial",
   "theorems": [
    "open_contraction_modes",
    "open_contraction_slow_modes_refuted"
   ],
   "note": "False of the code: mk_o_rs_matrix chooses modes as for a ring; the second half of the kept modes comes from the fast end. The theorem states exactly which modes are kept."
  },
  {
   "property": "C71",
   "status": "proved",
   "theorems": [
    "dynamical_frequencies",
    "wmax_first_mode",
    "centroid_factor"
   ],
   "note": "Factors as returned by get_nmm/get_o_nmm at evaluation time (staleness: C06)."
  },
  {
   "property": "C72",
   "status": "partial",
   "theorems": [
    "bab_step_modes",
    "bab_step_back",
    "bab_step_back_beads",
    "bab_dynamical_mass_refuted"
   ],
   "note": "False of the code for mass factors other than one (bab ignores them); everything else proved."
  },
  {
   "property": "C73",
   "status": "partial",
   "theorems": [
    "force_quantities_follow_inputs",
    "virsc_follows_positions_refuted",
    "extras_follow_weight_refuted"
   ],
   "note": "False of the code for virsc (reads virssc, declares potssc) and for extras (weights not declared). Proved for f, pots, virs, pot, vir, potssc, potsc and virssc over all histories."
  },
  {
   "property": "C74",
   "status": "partial",
   "theorems": [
    "gathered_extras_follow_beads",
    "additional_extras_refused",
    "missing_extras_refused_refuted",
    "promoted_extras_follow_beads"
   ],
   "note": "False of the code: a key missing in a later bead shifts the later entries silently. Proved when all beads report the same keys; additional keys are refused."
  },
  {
   "property": "C75",
   "status": "partial",
   "theorems": [
    "component_outputs_add_up_refuted",
    "component_outputs_add_up_partial",
    "component_outputs_raw"
   ],
   "note": "False of the code: the sum of the multiple-time-step weights is left out. Proved when these weights sum to one."
  },
  {
   "property": "C76",
   "status": "partial",
   "theorems": [
    "sc_energy_gradient",
    "sc_force_is_gradient_harmonic",
    "sc_force_converges",
    "sc_odd_refused",
    "sc_one_sided_contraction_refused",
    "sc_zero_epsilon_refuted",
    "sc_contracted_force_is_gradient_refuted",
    "sc_coefficients"
   ],
   "note": "False of the code in two cases: a zero finite-difference parameter leaves the result unbound, and with ring-polymer contraction the reported force is not the gradient. Proved for full-bead components: exact for harmonic forces, convergent for every smooth force field. Virials not modelled."
  },
  {
   "property": "C77",
   "status": "partial",
   "theorems": [
    "frozen_atoms_stay",
    "frozen_atoms_stay_refuted"
   ],
   "note": "False of the code: the free ring-polymer step moves frozen atoms whose beads do not coincide. Proved when the beads of frozen atoms coincide (in particular with one bead), for any number of steps."
  },
  {
   "property": "C78",
   "status": "partial",
   "theorems": [
    "momentum_conserved",
    "constraints_do_no_work",
    "fixcom_net_force_energy_refuted",
    "sc_frozen_energy_refuted",
    "sc_frozen_at_rest_refuted"
   ],
   "note": "False of the code with fixcom and a net force, and for frozen atoms with the Suzuki-Chin integrator: energy is booked at every step although nothing moves. Proved for forces without net force and for frozen atoms with the plain integrator."
  },
  {
   "property": "C79",
   "status": "proved",
   "theorems": [
    "langevin_relaxes",
    "langevin_stationary",
    "langevin_exact_in_time",
    "gle_stationary",
    "root_herm_squares",
    "root_herm_clips",
    "svr_relaxes",
    "pile_l_modes",
    "pile_friction"
   ],
   "note": "Averages are any linear normalised functional with the moments of independent standard normal and gamma draws; eigh is taken to return an orthonormal diagonalisation."
  },
  {
   "property": "C80",
   "status": "partial",
   "theorems": [
    "svr_factor_decomposed",
    "svr_sign_refuted",
    "svr_sign_partial",
    "ffl_flips_forward",
    "ffl_hard_forward",
    "ffl_none_is_langevin",
    "ffl_defined_refuted",
    "ffl_hard_stuck",
    "svr_at_rest"
   ],
   "note": "False of the code as stated. The sign test of ThermoSVR.step has 2K instead of K under the root, so for draws in a window the sign is not flipped when it should be; it is right outside the window. The flips keep lengths and direction, but the soft and rescale flips divide zero by zero for an atom at rest and the hard flip leaves a zero component at zero for ever."
  },
  {
   "property": "C81",
   "status": "partial",
   "theorems": [
    "pile_g_counts_dof",
    "nmgleg_counts_dof_refuted",
    "nmgleg_counts_dof_partial",
    "nmgleg_target",
    "multi_pile_g_counts_dof_refuted",
    "multi_pile_g_counts_dof_partial"
   ],
   "note": "False of the code: right for PILE_G, but nm_gle_g binds its rescaling thermostat without the constraints, and MultiThermo.bind does not pass fixcom on, so that a PILE_G inside a multiple thermostat divides the three centre-of-mass constraints by the number of beads."
  },
  {
   "property": "C82",
   "status": "partial",
   "theorems": [
    "cl_energy_accounted",
    "cl_is_langevin",
    "cl_time_constant_refuted",
    "cl_adjust_direction"
   ],
   "note": "Energy and adjustment proved. The time constant is false of the code: the damping factors have an extra 0.5, so the thermostat is a Langevin one with twice the given tau."
  },
  {
   "property": "C83",
   "status": "partial",
   "theorems": [
    "exp_ut3x3_refuted",
    "exp_ut3x3_partial",
    "exp_ut3x3_zero_refused",
    "eigensystem_refuted",
    "eigensystem_partial",
    "sinch_accurate",
    "dd_series_first_order"
   ],
   "note": "False of the code: exp_ut3x3 multiplies h01 by h02 instead of h12, eigensystem_ut3x3 divides the wrong element. Both functions are unused elsewhere. Proved where the wrong terms vanish."
  },
  {
   "property": "C84",
   "status": "proved",
   "theorems": [
    "matrix_exp_spectrum",
    "matrix_exp_converges",
    "sinch_exact",
    "sinch_zero",
    "sinch_even",
    "gaussian_inv_odd"
   ],
   "note": ""
  },
  {
   "property": "C85",
   "status": "partial",
   "theorems": [
    "minimum_image_shortest_orthorhombic",
    "minimum_image_close",
    "minimum_image_documented_refuted"
   ],
   "note": "Proved for right angles and within half the smallest distance between faces; the range the comment in the code claims is refuted."
  },
  {
   "property": "C86",
   "status": "proved",
   "theorems": [
    "genh_positions",
    "genh_keeps_metric",
    "genh_valid",
    "abc2h_standard"
   ],
   "note": ""
  },
  {
   "property": "C87",
   "status": "partial",
   "theorems": [
    "gle_scaling_refuted",
    "gle_scaling_partial",
    "accepted_swaps"
   ],
   "note": "False of the code: the extra momenta are scaled by the ratio of temperatures, not its square root."
  },
  {
   "property": "C88",
   "status": "proved",
   "theorems": [
    "acceptance",
    "acceptance_interval",
    "detailed_balance",
    "kinetic_energy_drops_out",
    "every_pair_once"
   ],
   "note": ""
  },
  {
   "property": "C89",
   "status": "proved",
   "theorems": [
    "force_is_gradient",
    "force_is_partial_derivative",
    "no_net_force"
   ],
   "note": "Along every differentiable motion of the beads."
  },
  {
   "property": "C90",
   "status": "partial",
   "theorems": [
    "symmetrised_weight",
    "all_permutations",
    "names_matter_refuted"
   ],
   "note": "The averaged weight is the sum over all N! permutations. That the potential is independent of the names is false of the code (by design of the recursion): names_matter_refuted."
  },
  {
   "property": "C91",
   "status": "proved",
   "theorems": [
    "exchange_probabilities",
    "fermionic_sign_range",
    "fermionic_recursion",
    "kinetic_is_derivative",
    "kinetic_below_free",
    "single_boson",
    "boson_mass_common",
    "kinetic_no_overflow"
   ],
   "note": "Real arithmetic."
  },
  {
   "property": "C92",
   "status": "partial",
   "theorems": [
    "total_is_springs_plus_exchange",
    "total_force_is_gradient",
    "resolve_in_range",
    "resolve_labels_spec",
    "open_boson_refuted",
    "duplicate_boson_refuted"
   ],
   "note": "False of the code when an atom is both boson and open path, or is listed twice; proved when every boson is listed once and is not an open path."
  },
  {
   "property": "C93",
   "status": "partial",
   "theorems": [
    "output_files_distinct_partial",
    "same_file_two_systems_refuted",
    "same_file_underscore_refuted",
    "same_file_bead_refuted"
   ],
   "note": "False of the code in general (systems without a prefix, underscores, names equal to a bead file); proved for distinct prefixes without underscore and simple names."
  },
  {
   "property": "C94",
   "status": "partial",
   "theorems": [
    "units_coherent_partial",
    "pascal_coherent_refuted",
    "calorie_refuted",
    "prefixes_are_si"
   ],
   "note": "False of the table for pascal, bar and atmosphere, which differ from the same energy per volume by three parts in a hundred thousand, and for the calorie if it is that of chemistry. All other composed units agree to two parts in a million."
  },
  {
   "property": "C95",
   "status": "partial",
   "theorems": [
    "label_recovered",
    "written_units_read_back_partial",
    "other_units_not_recovered",
    "written_units_refuted",
    "worded_alphabet"
   ],
   "note": "False of the code: only units made of letters and underscores are recognised in the comment, so ev/ang, m/s and the like are silently read as atomic units. Proved for all units made of letters and underscores. Numbers are reals and the format is xyz."
  },
  {
   "property": "C96",
   "status": "partial",
   "theorems": [
    "accepted_interval",
    "alchemy_balance",
    "swap_balance",
    "swap_balance_refuted"
   ],
   "note": "Proved for alchemical exchanges with respect to the spring energy and for swaps with respect to the potential. False of swaps of atoms with different masses when there are several beads, since the springs are left out (swap_balance_refuted)."
  },
  {
   "property": "C97",
   "status": "partial",
   "theorems": [
    "masses_by_hand_converted",
    "cell_by_hand_converted",
    "units_by_hand_refuted",
    "units_by_hand_ignored"
   ],
   "note": "Holds for masses and cells. False of the code for positions, momenta and velocities: the units play no part."
  },
  {
   "property": "C98",
   "status": "partial",
   "theorems": [
    "checkpoint_velocities_refuted",
    "checkpoint_velocities_ignore_momenta",
    "checkpoint_momenta"
   ],
   "note": "False of the code: init_vector is called without momenta=True and the positions are used as velocities. Momenta from checkpoints are proved right."
  },
  {
   "property": "C99",
   "status": "partial",
   "theorems": [
    "other_data_kept",
    "positions_kept",
    "positions_copied",
    "positions_centroid_kept",
    "one_frame_to_all_beads",
    "velocities_give_momenta",
    "velocities_of_one_frame",
    "mass_change_keeps_kinetic_energy",
    "first_masses_keep_momenta",
    "thermal_kinetic_energy",
    "momenta_by_bead_refuted",
    "hand_layout",
    "positions_of_one_atom",
    "positions_of_one_bead",
    "positions_of_one_atom_and_bead",
    "velocities_of_one_atom",
    "thermal_of_one_atom"
   ],
   "note": "Proved but for the last part, which is false of the code: momenta given bead by bead are multiplied by the square root of the number of beads (momenta_by_bead_refuted)."
  },
  {
   "property": "C100",
   "status": "partial",
   "theorems": [
    "harmonic_conservative",
    "gas_conservative",
    "morse_conservative",
    "morse_minimum",
    "dw_conservative",
    "dw_energies",
    "dw_several_atoms_refuted",
    "coupling_derivative",
    "bath_conservative",
    "dw_bath_conservative",
    "dw_bath_refuted",
    "ddw_refuted",
    "slj_conservative",
    "slj_others",
    "spline_refuted",
    "spline_fifth",
    "ddw_conservative"
   ],
   "note": "Proved for harmonic, gas, Morse, the double well with one atom, baths and the spherical Lennard-Jones potential. False of the code for splines (the force is a fifth of the slope), for double wells with several atoms (an array instead of one energy) and for double wells with baths (the bath object cannot be called)."
  },
  {
   "property": "C101",
   "status": "partial",
   "theorems": [
    "dw_barrier",
    "friction_tensor",
    "friction_well_refuted",
    "friction_well_ignores_parameters",
    "morse_parameters",
    "morse_some_parameters_refuted",
    "dipole_arguments_refuted",
    "dipole_first_argument_lost"
   ],
   "note": "Proved for the plain double well and complete Morse parameters. False of the code for the double well with friction, whose barrier is always the default one, and for driverdipole, whose first file name is taken as the verbose flag."
  },
  {
   "property": "C102",
   "status": "proved",
   "theorems": [
    "harmonic_batch_same",
    "harmonic_batch_defined",
    "gas_batch_same",
    "store_gives_parts",
    "store_sound",
    "mean_of_models",
    "mean_within"
   ],
   "note": ""
  },
  {
   "property": "C103",
   "status": "partial",
   "theorems": [
    "line_search_outcome",
    "line_search_terminates",
    "line_search_converged_refuted"
   ],
   "note": "False of the code: the exit for convergence reports the start as position together with energy and gradient of another point, where the structure is left. Termination and the other exits hold."
  },
  {
   "property": "C104",
   "status": "proved",
   "theorems": [
    "bfgs_update_spd",
    "bfgs_update_secant",
    "bfgs_update_skip",
    "bfgs_run_good",
    "bfgs_init_good",
    "bfgs_energy",
    "trm_update_ok",
    "powell_ok",
    "damped_curvature",
    "damped_spd",
    "damped_step"
   ],
   "note": "Any dimension and number of iterations; real arithmetic."
  },
  {
   "property": "C105",
   "status": "partial",
   "theorems": [
    "two_loops_bfgs",
    "lbfgs_descent_partial",
    "lbfgs_history",
    "lbfgs_reset_uphill",
    "lbfgs_uphill_refuted",
    "lbfgs_zero_pair_refuted"
   ],
   "note": "False of the code: the reset of an uphill direction uses the gradient with the wrong sign and does not reach the caller; after a pair without positive curvature the direction can go uphill; a zero pair stays in the lists and is divided by. With curved pairs the direction is the BFGS one and goes downhill."
  },
  {
   "property": "C106",
   "status": "partial",
   "theorems": [
    "trust_step_optimal_partial",
    "trust_radius",
    "trust_accept_partial",
    "trust_short_refuted"
   ],
   "note": "False of the code: steps of at most 0.05 are judged by the forces alone and the energy may rise. The step is optimal if no eigenvalue is below 1e-5 in size."
  },
  {
   "property": "C107",
   "status": "partial",
   "theorems": [
    "fire_step_ok",
    "fire_maxstep_partial",
    "fire_maxstep_refuted",
    "nichols_saddle_partial",
    "nichols_shift_refuted",
    "nichols_min_downhill",
    "nichols_big_step_refuted"
   ],
   "note": "False of the code: the step back of FIRE is not limited; the step of the minimising mode following is not limited to the maximum step; the shift can be equal to an eigenvalue, which is divided by zero."
  },
  {
   "property": "C108",
   "status": "proved",
   "theorems": [
    "bracket_sound",
    "bracket_derivative"
   ],
   "note": "Partial correctness: that the expansion ends is not claimed (it does not on unbounded functions). The derivative is right if the one given for the start is."
  },
  {
   "property": "C109",
   "status": "partial",
   "theorems": [
    "min_brent_partial",
    "min_brent_best",
    "brent_step_inside",
    "sd_energy_refuted",
    "sd_sign_refuted",
    "brent_secant_refuted"
   ],
   "note": "False of the code: a search that runs out of iterations leaves the structure at the last trial point; the derivative at the start has the wrong sign; secant steps that the rule accepts are replaced by bisection and too long ones are taken. A converged search leaves the best point, not above the start."
  },
  {
   "property": "C110",
   "status": "partial",
   "theorems": [
    "momenta_projected",
    "momenta_projection_orthogonal",
    "momenta_projection_cools",
    "momenta_projection_once",
    "momenta_of_others_kept",
    "total_momentum_kept",
    "momentum_kept",
    "angular_kept",
    "bond_tangent",
    "tangent_keeps_value",
    "momenta_projected_sharing_refuted",
    "schur_ok"
   ],
   "note": "False of the code for separately given constraints that share an atom (momenta_projected_sharing_refuted); proved for disjoint ones. The solver is any function that solves symmetric positive definite systems; schur_ok shows there is one."
  },
  {
   "property": "C111",
   "status": "partial",
   "theorems": [
    "positions_projected_partial",
    "positions_momenta_together",
    "linear_constraint_exact",
    "eckart_linear",
    "centre_of_mass_kept",
    "positions_defined",
    "no_iterations_undefined",
    "positions_never_warned",
    "unconverged_unnoticed_refuted"
   ],
   "note": "False of the code: the warning is never given (positions_never_warned) and there are starting points from which no number of iterations converges (unconverged_unnoticed_refuted). The positions are proved to be within tolerance if the loop was left by break (_partial: convergence itself is not proved, except for linear conditions)."
  },
  {
   "property": "C112",
   "status": "proved",
   "theorems": [
    "bond_value",
    "angle_value",
    "bond_first_frame",
    "bond_jacobian",
    "angle_jacobian",
    "eckart_linear",
    "eckart_jacobian",
    "eckart_reference",
    "eckart_tangent",
    "joined_order",
    "joined_value",
    "joined_jacobian",
    "joined_local",
    "bonds_local",
    "angles_local",
    "eckart_local",
    "atoms_proper",
    "bond_independent",
    "bonds_force_free",
    "angles_force_free",
    "eckart_moved"
   ],
   "note": "Floating point idealised as reals. Derivatives in every direction. Angles whose atoms coincide are excluded (division by zero)."
  },
  {
   "property": "C113",
   "status": "proved",
   "theorems": [
    "nve_step_good",
    "nve_step_sound",
    "nvt_step_good",
    "thermostat_step_ledger",
    "nve_step_defined",
    "nvt_step_defined",
    "constrained_nve_schedule",
    "constrained_nvt_schedule"
   ],
   "note": "pconstraints (fixcom, fixatoms) between the substeps is left out of the model."
  },
  {
   "property": "C114",
   "status": "partial",
   "theorems": [
    "eckart_check",
    "eckart_check_refuted",
    "fixdof_counts",
    "joined_counts",
    "joined_order"
   ],
   "note": "False of the code: eckart_check_refuted; eckart_check says exactly what is accepted."
  },
  {
   "property": "C115",
   "status": "partial",
   "theorems": [
    "fd_full_hessian",
    "fd_active_hessian",
    "fd_runs",
    "fd_converges",
    "phonons_restart",
    "fixed_rows_refuted"
   ],
   "note": "Proved but for the last clause, which is false of the code: entries of _full.hess between a fixed and a free coordinate are halved (fixed_rows_refuted)."
  },
  {
   "property": "C116",
   "status": "partial",
   "theorems": [
    "nm_refined",
    "enm_limited",
    "enm_energy",
    "nm_result_is_input",
    "nm_refined_refuted"
   ],
   "note": "False of the code: nm_transform ends by overwriting refdynmatrix with the dynmatrix it started from (nm_result_is_input, nm_refined_refuted). The refined matrix it computes on the way is right (nm_refined)."
  },
  {
   "property": "C117",
   "status": "partial",
   "theorems": [
    "asr_kills",
    "asr_symmetric",
    "asr_vibrations",
    "asr_fixpoint",
    "asr_idempotent",
    "moi_inertia",
    "crystal_orthonormal",
    "poly_orthonormal",
    "eig_orthonormal",
    "crystal_sum_rule",
    "poly_sum_rules",
    "printed_crystal",
    "printed_poly",
    "poly_degenerate_refuted",
    "asr_lin_refuted",
    "clean_matrix_crystal",
    "clean_matrix_poly"
   ],
   "note": "Proved for crystal, and for poly with distinct moments of inertia. With equal moments eig need not give orthogonal axes and a rotation is left in (poly_degenerate_refuted); the documented option lin raises an exception at the end of the run (asr_lin_refuted)."
  },
  {
   "property": "C118",
   "status": "partial",
   "theorems": [
    "printed_modes",
    "printall_shift",
    "output_shift_ignored",
    "output_shift_refuted"
   ],
   "note": "False of the code for the shift: printall receives a matrix to which the shift was never added (output_shift_ignored, output_shift_refuted). The rest is proved."
  },
  {
   "property": "C119",
   "status": "partial",
   "theorems": [
    "clean_exact",
    "clean_number",
    "clean_refuted",
    "h_row_exact",
    "get_dynmat_entry",
    "clean_matrix_none"
   ],
   "note": "False of the code with a frequency between -4 and -0.01 (clean_refuted); proved when there is none (clean_exact). The number of modes removed is always that of the zero frequencies (clean_number)."
  },
  {
   "property": "C120",
   "status": "partial",
   "theorems": [
    "hessian_resumes",
    "hessian_clears",
    "hessian_keeps_work",
    "get_hessian_exact",
    "friction_resumes_partial",
    "friction_resumes_refuted",
    "friction_work_refuted",
    "cut_file_fails",
    "cut_resumes_refuted",
    "h_row_exact",
    "e_slice_exact"
   ],
   "note": "Proved without friction for interruptions between operations on files. A file cut short makes later calls fail (cut_resumes_refuted); with friction an interruption between the two files of the first coordinate loses that derivative (friction_resumes_refuted), and rows are computed again (friction_work_refuted)."
  },
  {
   "property": "C121",
   "status": "partial",
   "theorems": [
    "bzp_pstep_eq",
    "bzp_qcstep_flow",
    "bzp_qcstep_group",
    "npt_pstep_group",
    "scbzp_is_bzp",
    "bzp_at_rest_refuted",
    "pscstep_level",
    "coeffsc_forces"
   ],
   "note": "False of the code for a barostat exactly at rest, where qcstep divides zero by zero (bzp_at_rest_refuted); proved for a moving one. npt_pstep_group is for no fixed atoms and no bias (see C122)."
  },
  {
   "property": "C122",
   "status": "partial",
   "theorems": [
    "npt_pstep_reversible",
    "bzp_qcstep_reversible",
    "npt_step_reversible",
    "nvt_npt_step_reversible",
    "sc_npt_step_reversible",
    "npt_pstep_bias_refuted",
    "npt_pstep_fixed_refuted",
    "fixed_atoms_move_refuted"
   ],
   "note": "False of the code with a bias (the second order term of pstep leaves out the bias) and with fixed atoms (it has the forces of fixed atoms, and qcstep moves them); proved without them, for both integrators and splittings."
  },
  {
   "property": "C123",
   "status": "proved",
   "theorems": [
    "kick_rate",
    "drift_rate",
    "bzp_kick_rate",
    "bzp_drifts",
    "bzp_conserved",
    "bzp_level",
    "bzp_level_innermost"
   ],
   "note": "First order in the time step; together with C122 (symmetric step) the error per step is of third order, which is not proved. The heat of the thermostats is not part of the model. For a barostat at rest see C121."
  },
  {
   "property": "C124",
   "status": "partial",
   "theorems": [
    "cell_rate",
    "cell_conserved_partial",
    "mtk_works",
    "rgb_works",
    "pi_rgb_reference",
    "cell_shear_refuted",
    "cell_hfix_refuted",
    "cell_transposed_refuted",
    "rgb_asymmetric_refuted"
   ],
   "note": "False of the code: kstress_mts lacks the off-diagonal kinetic stress, has the indices of the virial of the deviations the wrong way round, the Jacobian does not know the mask, and a stressext that is not symmetric does no conservative work. cell_rate gives the exact rate of the drift for all states; cell_conserved_partial the condition under which it is zero."
  },
  {
   "property": "C125",
   "status": "partial",
   "theorems": [
    "mask_exact",
    "mask_errors",
    "masked_after_pstep",
    "volume_rate",
    "obabo_drifts_constrained",
    "baoab_drifts_constrained_partial",
    "baoab_drifts_refuted",
    "hfix_moves_cell_refuted",
    "to33_to6",
    "to6_to33",
    "kin_six",
    "pstep_upper"
   ],
   "note": "False of the code: with baoab the cell moves after the thermostat with momenta to which the mask and the volume constraint have not been applied, unless some factor of the multiple time stepping is even; and h_xy changes with v_xx although named in hfix. Mask, errors, momenta after pstep and obabo proved."
  },
  {
   "property": "C126",
   "status": "partial",
   "theorems": [
    "cell_drifts",
    "germ_exp",
    "germ_sinh",
    "zero_time_jump",
    "fixed_diagonal_jump_refuted",
    "no_eigenvectors_refuted"
   ],
   "note": "False of the code: when the diagonal of v is zero a factor of the time step is missing and the atoms jump by p/m in every step; when v has no basis of eigenvectors the matrix of eigenvectors has no inverse. Proved for the other v at time zero (first order)."
  },
  {
   "property": "C127",
   "status": "partial",
   "theorems": [
    "connectivity_fcc",
    "near_neighbours",
    "neighbours_sym",
    "neighbours_irrefl",
    "two_cells_refuted",
    "padded_length"
   ],
   "note": "False of the code for two cells per side: rows are padded with site 0, so vacancies may jump to site 0 from sites that are not its neighbours. Proved for three or more."
  },
  {
   "property": "C128",
   "status": "proved",
   "theorems": [
    "kmc_runs",
    "events_spec",
    "step_consistent",
    "run_consistent",
    "bind_consistent",
    "consistent_composition",
    "connected",
    "bind_duplicate_refuted",
    "no_atoms_refuted"
   ],
   "note": "For a permutation in idx; one that is not a permutation is only reported on the terminal and changes the composition (bind_duplicate_refuted)."
  },
  {
   "property": "C129",
   "status": "proved",
   "theorems": [
    "event_balance",
    "event_back",
    "targets_distinct",
    "detailed_balance",
    "boltzmann_stationary",
    "energy_key",
    "unique_idx_key",
    "fcc_rows"
   ],
   "note": ""
  },
  {
   "property": "C130",
   "status": "proved",
   "theorems": [
    "selection_rule",
    "selection_share",
    "selection_total",
    "residence_nonneg",
    "residence_exponential"
   ],
   "note": ""
  },
  {
   "property": "C131",
   "status": "partial",
   "theorems": [
    "evaluators_exclusive",
    "events_evaluated",
    "cache_kept",
    "op_decreases",
    "never_stuck",
    "no_keyerror_partial",
    "step_energies",
    "keyerror_refuted",
    "oversized_cache_refuted",
    "duplicate_crash_refuted",
    "no_cache_refuted"
   ],
   "note": "False of the code: with a full cache an entry may be dropped between the look-up and the reading (KeyError); a cache file longer than max_cache_len only grows. Everything but the KeyError is proved for caches within the limit, and its absence when the new states fit."
  },
  {
   "property": "C132",
   "status": "proved",
   "theorems": [
    "positions_moved",
    "unique_idx_inverse",
    "unique_idx_names",
    "unique_idx_sorted",
    "unique_idx_slot",
    "match_follows"
   ],
   "note": ""
  },
  {
   "property": "C133",
   "status": "proved",
   "theorems": [
    "handler_collects",
    "root_collects"
   ],
   "note": ""
  },
  {
   "property": "C134",
   "status": "proved",
   "theorems": [
    "print_read"
   ],
   "note": "The reader of xml.sax is modelled for elements, attributes, texts and the five entities; declarations, comments and CDATA are left out."
  },
  {
   "property": "C135",
   "status": "partial",
   "theorems": [
    "checkpoint_restart",
    "round_trip_cls",
    "same_write",
    "prng_checkpoint_refuted"
   ],
   "note": "Proved for all classes whose attributes are InputAttribute; false of the code for InputRandom with n_threads other than 1, which is among the attributes as an InputValue. Store and fetch of the single classes are not part of it."
  },
  {
   "property": "C136",
   "status": "proved",
   "theorems": [
    "parse_accepts",
    "parse_iff"
   ],
   "note": ""
  },
  {
   "property": "C137",
   "status": "proved",
   "theorems": [
    "write_decides",
    "same_write"
   ],
   "note": ""
  },
  {
   "property": "C138",
   "status": "proved",
   "theorems": [
    "plain_values_stable",
    "floats_stable",
    "int_elem",
    "array_read"
   ],
   "note": ""
  },
  {
   "property": "C139",
   "status": "partial",
   "theorems": [
    "repeated_tag_refuted"
   ],
   "note": "False of the code: stale units."
  },
  {
   "property": "C140",
   "status": "partial",
   "theorems": [
    "text_not_escaped_refuted",
    "string_array_refuted",
    "plain_values_stable"
   ],
   "note": "False of the code: no escaping; true for strings without < and & (checkpoint_restart)."
  },
  {
   "property": "C141",
   "status": "proved",
   "theorems": [
    "xml_write_read",
    "parse_layout"
   ],
   "note": ""
  },
  {
   "property": "C142",
   "status": "partial",
   "theorems": [
    "template_same",
    "template_entity_refuted"
   ],
   "note": "Proved for plain texts; false of the code for entities."
  },
  {
   "property": "C143",
   "status": "partial",
   "theorems": [
    "longer_label_first",
    "label_order_refuted"
   ],
   "note": "False of the code in general; true when one label is the beginning of the other."
  },
  {
   "property": "C144",
   "status": "proved",
   "theorems": [
    "edit_remove",
    "edit_full_count"
   ],
   "note": ""
  },
  {
   "property": "C145",
   "status": "proved",
   "theorems": [
    "kincv_adds_up",
    "kintd_adds_up",
    "sckintd_adds_up",
    "ti_term_adds_up",
    "ktens_adds_up"
   ],
   "note": "Without bosons (C158). Case adds_case."
  },
  {
   "property": "C146",
   "status": "proved",
   "theorems": [
    "ktens_trace",
    "traj_components",
    "traj_kinetic",
    "kstress_trace",
    "rg_components"
   ],
   "note": "Cases kin_case, adds_case."
  },
  {
   "property": "C147",
   "status": "proved",
   "theorems": [
    "kincv_translation",
    "kincv_common_force",
    "kincv_convex",
    "kincv_virial"
   ],
   "note": "Cases kin_case, adds_case."
  },
  {
   "property": "C148",
   "status": "partial",
   "theorems": [
    "kintd_is_energy",
    "kintd_is_mass_derivative",
    "kintd_spring",
    "kintd_open_refuted"
   ],
   "note": "False of the code with open paths (kintd_open_refuted); the other theorems are for closed paths. Cases energy_case, spring_case."
  },
  {
   "property": "C149",
   "status": "proved",
   "theorems": [
    "sc_energy",
    "sckinpr_is_mass_derivative"
   ],
   "note": "Case energy_case (system one)."
  },
  {
   "property": "C150",
   "status": "partial",
   "theorems": [
    "yama_ends",
    "yama_limit",
    "scaledcoords_limit",
    "scaledcoords_harmonic",
    "sc_scaledcoords_limit",
    "sc_scaledcoords_refuted",
    "yama_always_ends"
   ],
   "note": "False of the code for the fourth order (sc_scaledcoords_refuted); sc_scaledcoords_limit gives the limit it has. Case scaled_case."
  },
  {
   "property": "C151",
   "status": "partial",
   "theorems": [
    "temp_all_modes",
    "temp_bead",
    "temp_mode",
    "temp_mode_partial",
    "temp_mode_refuted",
    "temp_no_enstype"
   ],
   "note": "False of the code for the modes with constant centroid and fixed atoms (temp_mode_refuted; temp_mode gives the value it has). Case temp_case."
  },
  {
   "property": "C152",
   "status": "proved",
   "theorems": [
    "zetatd_weight",
    "zetatd_4th_weight",
    "zetatd_same_mass",
    "traj_zetatd_mean",
    "traj_zeta_refuted"
   ],
   "note": "The trajectory of the same name lacks the free-particle factor (traj_zetatd_mean) and has 1 instead of the documented 0 for other atoms (traj_zeta_refuted). Case zeta_case."
  },
  {
   "property": "C153",
   "status": "partial",
   "theorems": [
    "zetasc_weight",
    "zetasc_same_mass",
    "zetasc_4th_partial",
    "zetasc_4th_weight",
    "zetasc_4th_refuted",
    "traj_zetasc_mean",
    "scale_keeps_centroid"
   ],
   "note": "False of the code for the fourth order with interacting atoms (zetasc_4th_refuted). Case zeta_case."
  },
  {
   "property": "C154",
   "status": "proved",
   "theorems": [
    "open_bonds",
    "linlin_weight",
    "linlin_centroid",
    "linlin_zero"
   ],
   "note": "With the copy of the cell up to date (C155). Case linlin_case."
  },
  {
   "property": "C155",
   "status": "partial",
   "theorems": [
    "copies_follow",
    "copies_refreshed",
    "copies_stale",
    "stale_cell_refuted",
    "scop_local",
    "scop_refuted"
   ],
   "note": "False of the code (stale_cell_refuted, scop_refuted)."
  },
  {
   "property": "C156",
   "status": "partial",
   "theorems": [
    "log_weights_sum",
    "log_ke_sum",
    "isotope_log_refuted"
   ],
   "note": "False of the code with negative kinetic energies (isotope_log_refuted)."
  },
  {
   "property": "C157",
   "status": "proved",
   "theorems": [
    "chin_correction_weight",
    "chin_correction_odd",
    "ti_correction_term"
   ],
   "note": "Case linlin_case."
  },
  {
   "property": "C158",
   "status": "partial",
   "theorems": [
    "some_bosons",
    "all_bosons",
    "kintd_minus_one_refuted"
   ],
   "note": "False of the code for the index -1 (kintd_minus_one_refuted). Case bosons_case."
  },
  {
   "property": "C159",
   "status": "proved",
   "theorems": [
    "cavity_charges",
    "cavity_energy_bound",
    "cavity_uncoupled",
    "cavity_net_force"
   ],
   "note": "Up to the constant of C161."
  },
  {
   "property": "C160",
   "status": "proved",
   "theorems": [
    "cavity_dipole_surface"
   ],
   "note": "One bath, as the code."
  },
  {
   "property": "C161",
   "status": "partial",
   "theorems": [
    "cavity_offset_refuted",
    "cavity_offset_partial",
    "cavity_charges"
   ],
   "note": "False of the code: the offset is subtracted twice. Restricted theorem: the exact result."
  },
  {
   "property": "C162",
   "status": "partial",
   "theorems": [
    "cavity_missing_dipole_refuted",
    "cavity_missing_dipole_partial"
   ],
   "note": "False of the code: a missing entry raises KeyError before the message. Restricted: results exactly for complete replies, the message for wrong sizes."
  },
  {
   "property": "C163",
   "status": "proved",
   "theorems": [
    "cavity_counted_once"
   ],
   "note": "Charges; offsets zero (see C161)."
  },
  {
   "property": "C164",
   "status": "partial",
   "theorems": [
    "cavity_two_threads_refuted",
    "cavity_one_thread_partial",
    "cavity_one_thread_ends"
   ],
   "note": "False of the code for two threads: other photons used, exception on None, unfinished result read. Restricted theorem: one thread."
  },
  {
   "property": "C165",
   "status": "proved",
   "theorems": [
    "extras_in_order",
    "extras_raw",
    "extras_keys",
    "extras_single"
   ],
   "note": ""
  },
  {
   "property": "C166",
   "status": "proved",
   "theorems": [
    "fix_masks",
    "fix_active_1",
    "fix_active_2",
    "fix_round_trip_1",
    "fix_round_trip_2",
    "fix_full_active",
    "free_stores"
   ],
   "note": ""
  },
  {
   "property": "C167",
   "status": "partial",
   "theorems": [
    "fix_full_3",
    "fix_full_4",
    "fix_full_5",
    "fix_round_trip_refuted",
    "lbfgs_fixed_fails",
    "array_type_refuted",
    "array_type_partial",
    "lists_reduced",
    "fix_whole_atoms_partial",
    "fix_dofs_refuted",
    "fix_count_stop",
    "array_type_keys"
   ],
   "note": "False of the code for types 3, 4 and 5 and for the names of the lists; the failures are proved for all systems with a fixed and a free atom. A list with a single coordinate of an atom fixes the whole atom."
  },
  {
   "property": "C168",
   "status": "partial",
   "theorems": [
    "recompute_fixed_fails",
    "powell_stores",
    "free_stores"
   ],
   "note": "False of the code: the recomputed Hessian cannot be extended when atoms are fixed."
  },
  {
   "property": "C169",
   "status": "partial",
   "theorems": [
    "chain_derivative",
    "spring_energy",
    "spring_gradient",
    "spring_consistent",
    "spring_hessian_chain",
    "spring_hessian_uniform",
    "spring_hessian_refuted"
   ],
   "note": "False of the code for coefficients other than one; proved for coefficients of one, and what each of the functions computes for all coefficients."
  },
  {
   "property": "C170",
   "status": "partial",
   "theorems": [
    "red2comp_entries",
    "banded_full",
    "sym_band_symmetric",
    "banded_solves",
    "banded_dynmat",
    "banded_two_refuted"
   ],
   "note": "False of the code for two beads (ValueError); proved for one and for three or more."
  },
  {
   "property": "C171",
   "status": "proved",
   "theorems": [
    "step_solves",
    "lanczos_direction"
   ],
   "note": "solve_banded and diag_banded are taken as their specifications. The shift may meet the second eigenvalue when it is half the negative first one (excluded by hypothesis, see nichols_shift_refuted)."
  },
  {
   "property": "C172",
   "status": "proved",
   "theorems": [
    "rescale_bound"
   ],
   "note": ""
  },
  {
   "property": "C173",
   "status": "proved",
   "theorems": [
    "weights_consistent",
    "weights_uniform",
    "weights_sum"
   ],
   "note": ""
  },
  {
   "property": "C174",
   "status": "partial",
   "theorems": [
    "hessian_weighted",
    "complete_hessian",
    "complete_hessian_uniform",
    "complete_hessian_refuted"
   ],
   "note": "False of the code for coefficients other than one; proved for weights of one. Quadratic wells."
  },
  {
   "property": "C175",
   "status": "partial",
   "theorems": [
    "mapper_disc",
    "mapper_disc_refuted",
    "one_refuted",
    "disc_array_refuted"
   ],
   "note": "False of the code; what each value does is proved."
  },
  {
   "property": "C176",
   "status": "partial",
   "theorems": [
    "friction_gradient",
    "friction_first",
    "friction_counted",
    "friction_energy_refuted",
    "friction_evaluate_gradient"
   ],
   "note": "False of the code: the energy is counted once per bead. The gradient is proved for constant diagonal friction."
  },
  {
   "property": "C177",
   "status": "partial",
   "theorems": [
    "friction_hessian",
    "friction_hessian_refuted"
   ],
   "note": "False of the code."
  },
  {
   "property": "C178",
   "status": "partial",
   "theorems": [
    "check_eta_last",
    "check_eta_refuted"
   ],
   "note": "False of the code for the inner beads; what is checked is proved."
  },
  {
   "property": "C179",
   "status": "proved",
   "theorems": [
    "selected_beads",
    "selected_close",
    "selected_needed",
    "selection_fails",
    "no_selection",
    "thresholds_spec",
    "pathway_start",
    "pathway_step",
    "pathway_distance"
   ],
   "note": ""
  },
  {
   "property": "C180",
   "status": "proved",
   "theorems": [
    "geometry_mirror",
    "geometry_centroid",
    "geometry_ends",
    "geometry_fixed",
    "geometry_monotone"
   ],
   "note": ""
  },
  {
   "property": "C181",
   "status": "partial",
   "theorems": [
    "exits_spec",
    "exits_refuted"
   ],
   "note": "False of the code; the exact condition is proved."
  },
  {
   "property": "C182",
   "status": "partial",
   "theorems": [
    "envelope_pulse",
    "envelope_wave",
    "envelope_range",
    "envelope_peak",
    "envelope_symmetric",
    "envelope_fades",
    "field_bounded",
    "field_wave",
    "field_period",
    "field_off",
    "field_enabled_spec",
    "field_of_list",
    "envelope_refuted"
   ],
   "note": "False of the code for a finite width with a peak at or before time zero (envelope_refuted). Case field_case."
  },
  {
   "property": "C183",
   "status": "partial",
   "theorems": [
    "td_levels",
    "driven_time",
    "driven_step_is",
    "driven_impulse",
    "driven_impulse_trapezium",
    "impulse_refuted"
   ],
   "note": "False of the code for nmts[0] > 1 (impulse_refuted); driven_impulse gives the impulse it has."
  },
  {
   "property": "C184",
   "status": "proved",
   "theorems": [
    "driven_reversible",
    "driven_keeps_constraints",
    "driven_frozen"
   ],
   "note": "Case driven_case."
  },
  {
   "property": "C185",
   "status": "partial",
   "theorems": [
    "kick_work",
    "dipole_rate",
    "frozen_field_energy_refuted"
   ],
   "note": "False of the code with frozen atoms (frozen_field_energy_refuted)."
  },
  {
   "property": "C186",
   "status": "partial",
   "theorems": [
    "driver_bec_accepted",
    "driver_bec_complete",
    "driver_bec_missing",
    "sum_rule_no_force",
    "sum_rule_momentum",
    "accepted_force",
    "sum_rule_refuted"
   ],
   "note": "False of the code for the documented threshold (sum_rule_refuted); accepted_force gives the bound it enforces."
  },
  {
   "property": "C187",
   "status": "proved",
   "theorems": [
    "fixed_bec_size",
    "fixed_bec_roundtrip"
   ],
   "note": ""
  },
  {
   "property": "C188",
   "status": "partial",
   "theorems": [
    "dipole_key",
    "dipole_key_wrong",
    "dipole_nothing",
    "dipole_text_refuted"
   ],
   "note": "False of the code for every text (dipole_text_refuted). Case dipole_case."
  },
  {
   "property": "C189",
   "status": "partial",
   "theorems": [
    "temperature_check",
    "temperature_refuted"
   ],
   "note": "False of the code for eda-nvt (temperature_refuted)."
  },
  {
   "property": "C190",
   "status": "proved",
   "theorems": [
    "expand3_blocks",
    "dist2_symmetric",
    "screen_entries",
    "screen_symmetric",
    "screen_own"
   ],
   "note": ""
  },
  {
   "property": "C191",
   "status": "partial",
   "theorems": [
    "omega2_harmonic",
    "omega2_lower",
    "omega2_screened",
    "omega2_one_bead_refuted"
   ],
   "note": "False of the code for one bead (omega2_one_bead_refuted). Case harmonic_case."
  },
  {
   "property": "C192",
   "status": "partial",
   "theorems": [
    "dnm_freqs_lowest",
    "start_centroid",
    "start_contracts",
    "start_momenta_centroid",
    "start_momenta_scale",
    "start_contracts_refuted",
    "start_more_beads_refuted",
    "dnm_freqs_one_bead_refuted"
   ],
   "note": "False of the code for numbers of beads other than that of the path (start_contracts_refuted, start_more_beads_refuted)."
  },
  {
   "property": "C193",
   "status": "proved",
   "theorems": [
    "triggered_steps"
   ],
   "note": ""
  },
  {
   "property": "C194",
   "status": "proved",
   "theorems": [
    "csr_recovered",
    "csc_recovered",
    "csr_stored",
    "saved_loaded",
    "elementwise_entries"
   ],
   "note": "Cases csr_case, csc_case, nz_case."
  },
  {
   "property": "C195",
   "status": "partial",
   "theorems": [
    "netstring_roundtrip",
    "netstrings_roundtrip",
    "netstring_read_shape",
    "netstring_save_bytes",
    "netstring_empty_refuted",
    "netstring_save_refuted"
   ],
   "note": "False of the code: netstring_save_refuted (every call raises TypeError), netstring_empty_refuted. Case frames_case."
  },
  {
   "property": "C196",
   "status": "partial",
   "theorems": [
    "tangent_unit",
    "plain_reversed",
    "improved_reversed",
    "improved_uphill",
    "improved_reversed_refuted"
   ],
   "note": "False of the code for three equal energies (improved_reversed_refuted)."
  },
  {
   "property": "C197",
   "status": "proved",
   "theorems": [
    "neb_force_along",
    "neb_force_across",
    "neb_force_zero",
    "band_grad_zero"
   ],
   "note": "Case band_case."
  },
  {
   "property": "C198",
   "status": "proved",
   "theorems": [
    "climb_along",
    "climb_across",
    "climb_norm",
    "climb_zero",
    "climb_grad_zero"
   ],
   "note": ""
  },
  {
   "property": "C199",
   "status": "proved",
   "theorems": [
    "argmax_spec",
    "run_keeps",
    "climb_moves_one",
    "climb_highest"
   ],
   "note": ""
  },
  {
   "property": "C200",
   "status": "partial",
   "theorems": [
    "band_converged",
    "band_stops",
    "climb_converged",
    "converged_ends",
    "endpoints_stage_refuted"
   ],
   "note": "False of the code for the stage endpoints (endpoints_stage_refuted)."
  },
  {
   "property": "C201",
   "status": "partial",
   "theorems": [
    "climb_chosen_once",
    "climb_chosen_again_refuted"
   ],
   "note": "False of the code for a neighbour at the origin (climb_chosen_again_refuted)."
  },
  {
   "property": "C202",
   "status": "partial",
   "theorems": [
    "big_step_floor",
    "big_step_floor_always",
    "big_step_good",
    "big_step_bad",
    "big_step_grows",
    "big_step_bad_refuted"
   ],
   "note": "False of the code below 2/100 (big_step_bad_refuted)."
  },
  {
   "property": "C203",
   "status": "partial",
   "theorems": [
    "hessian_band",
    "hessian_none",
    "hessian_full_refuted",
    "hessian_climb_refuted",
    "hessian_climb_only_empty"
   ],
   "note": "False of the code: hessian_full_refuted, hessian_climb_refuted (no restart while climbing)."
  },
  {
   "property": "C204",
   "status": "partial",
   "theorems": [
    "band_reports",
    "band_reports_weight_refuted",
    "first_force_weight_refuted",
    "first_force_weight_one",
    "climb_reports",
    "climb_reports_across",
    "climb_reports_refuted"
   ],
   "note": "False of the code: climb_reports_refuted, band_reports_weight_refuted, first_force_weight_refuted."
  },
  {
   "property": "C205",
   "status": "partial",
   "theorems": [
    "py_call_spec",
    "modes_build",
    "modes_receive",
    "unknown_field_stops",
    "constrained_build_refuted",
    "constrained_input_refuted"
   ],
   "note": "False of the code for constrained_dynamics (constrained_build_refuted, constrained_input_refuted)."
  },
  {
   "property": "C206",
   "status": "partial",
   "theorems": [
    "survives_iff",
    "lost_spec",
    "all_survive",
    "sections_kept",
    "sections_lost",
    "planetary_fixed_refuted",
    "kmc_optimizer_refuted",
    "scp_weights_refuted"
   ],
   "note": "False of the code: planetary_fixed_refuted, kmc_optimizer_refuted, scp_weights_refuted, sections_lost (neb corrections)."
  },
  {
   "property": "C207",
   "status": "partial",
   "theorems": [
    "geop_kept",
    "geop_reads_set",
    "geop_ls_options_refuted"
   ],
   "note": "False of the code for ls_options of bfgs and lbfgs (geop_ls_options_refuted)."
  },
  {
   "property": "C208",
   "status": "partial",
   "theorems": [
    "inst_lost_second_order",
    "inst_lost_lbfgs",
    "inst_hessian_kept",
    "inst_asr_refuted"
   ],
   "note": "False of the code: inst_asr_refuted; hessian_init and old_x are not stored."
  },
  {
   "property": "C209",
   "status": "partial",
   "theorems": [
    "stages_admitted",
    "stage_converged_refuted"
   ],
   "note": "False of the code for converged (stage_converged_refuted)."
  },
  {
   "property": "C210",
   "status": "partial",
   "theorems": [
    "beads_follow",
    "fpath_follows_masses_refuted"
   ],
   "note": "False of the code for fpath (fpath_follows_masses_refuted)."
  },
  {
   "property": "C211",
   "status": "partial",
   "theorems": [
    "atoms_readable",
    "beads_readable",
    "beads_kin_refuted"
   ],
   "note": "False of the code for Beads.kin (beads_kin_refuted)."
  },
  {
   "property": "C212",
   "status": "partial",
   "theorems": [
    "draws_mirrored",
    "draws_mean",
    "draws_odd",
    "draws_refuted",
    "rows_fresh",
    "rows_inside"
   ],
   "note": "False of the code for odd max_steps (draws_refuted)."
  },
  {
   "property": "C213",
   "status": "partial",
   "theorems": [
    "scp_iterations",
    "scp_ends",
    "scp_stops",
    "scp_computes_once",
    "scp_reuse",
    "scp_restart_refuted",
    "scp_odd_refuted",
    "bind_spec"
   ],
   "note": "False of the code: scp_restart_refuted, scp_odd_refuted."
  },
  {
   "property": "C214",
   "status": "partial",
   "theorems": [
    "branch_done",
    "branch_sd",
    "branch_skipped",
    "branch_sd_refuted"
   ],
   "note": "False of the code for sd with precheck (branch_sd_refuted)."
  },
  {
   "property": "C215",
   "status": "partial",
   "theorems": [
    "inner_ends",
    "exact_significant",
    "inner_never",
    "inner_ends_refuted"
   ],
   "note": "Ending is false of the code (inner_ends_refuted)."
  },
  {
   "property": "C216",
   "status": "proved",
   "theorems": [
    "weight_same",
    "weight_ratio",
    "nweight_sum",
    "bweight_range",
    "bweight_one",
    "bweight_scale",
    "fresh_weight",
    "force_error"
   ],
   "note": "Case bweight_case."
  },
  {
   "property": "C217",
   "status": "proved",
   "theorems": [
    "avg_const",
    "avg_between",
    "avg_scale",
    "var_defined",
    "var_equal"
   ],
   "note": "Case var_case."
  },
  {
   "property": "C218",
   "status": "proved",
   "theorems": [
    "force_trial",
    "force_mirrored",
    "hessian_exact",
    "hessian_symmetric",
    "total_pos"
   ],
   "note": "Case average_case."
  },
  {
   "property": "C219",
   "status": "partial",
   "theorems": [
    "hpf_modes",
    "hpf_positive",
    "hpf_square",
    "hpf_stable",
    "hpf_frequencies",
    "hpf_low",
    "hpf_imaginary_refuted"
   ],
   "note": "The documented treatment of imaginary frequencies is false of the code (hpf_imaginary_refuted)."
  },
  {
   "property": "C220",
   "status": "proved",
   "theorems": [
    "td_classical",
    "td_quantum",
    "td_pos"
   ],
   "note": "Case td_case."
  },
  {
   "property": "C221",
   "status": "proved",
   "theorems": [
    "D_iD",
    "K_iK",
    "inverses",
    "deviates_D",
    "branch_unchecked"
   ],
   "note": "Case matrices_case."
  },
  {
   "property": "C222",
   "status": "proved",
   "theorems": [
    "nm_modes",
    "nm_is_ik",
    "ik_newton",
    "sd_modes",
    "rescale_values",
    "mode_error",
    "inner_step"
   ],
   "note": ""
  },
  {
   "property": "C223",
   "status": "partial",
   "theorems": [
    "freq_is",
    "imf_modes",
    "imaginary_refuted"
   ],
   "note": "False of the code for negative eigenvalues (imaginary_refuted). Case imf_case."
  },
  {
   "property": "C224",
   "status": "partial",
   "theorems": [
    "walk_some",
    "walk_ends",
    "mapping_ends_refuted",
    "samples_distinct",
    "harmonic_potential",
    "harmonic_force",
    "harmonic_stop",
    "stored_force_refuted",
    "samples_physical"
   ],
   "note": "False of the code: mapping_ends_refuted, stored_force_refuted. Cases walk_case, harmonic_case."
  },
  {
   "property": "C225",
   "status": "partial",
   "theorems": [
    "converge_some",
    "first_converged_refuted"
   ],
   "note": "first_converged_refuted: a first value near zero is taken as converged. Case converge_case."
  },
  {
   "property": "C226",
   "status": "partial",
   "theorems": [
    "basis_shift",
    "basis_same_refuted",
    "modes_kept",
    "modes_kept_refuted",
    "offset_is",
    "offset_refuted"
   ],
   "note": "False of the code: basis_same_refuted, modes_kept_refuted, offset_refuted."
  },
  {
   "property": "C227",
   "status": "proved",
   "theorems": [
    "hmat_is",
    "hmat_sym",
    "levels_free",
    "levels_internal",
    "harmonic_correction"
   ],
   "note": "Case levels_case."
  },
  {
   "property": "C228",
   "status": "proved",
   "theorems": [
    "free_below",
    "free_above",
    "internal_between",
    "free_internal",
    "har_free"
   ],
   "note": "Case har_case."
  },
  {
   "property": "C229",
   "status": "proved",
   "theorems": [
    "pairs_all",
    "pairs_once",
    "vscf_sequence"
   ],
   "note": "Case sequence_case."
  },
  {
   "property": "C230",
   "status": "proved",
   "theorems": [
    "mapper_some",
    "displacements_match"
   ],
   "note": "Case mapper_case."
  },
  {
   "property": "C231",
   "status": "partial",
   "theorems": [
    "coupled_is",
    "modes_last",
    "coupled_refuted"
   ],
   "note": "False of the code with a slow mode that is not zero (coupled_refuted). Case coupled_case."
  },
  {
   "property": "C232",
   "status": "partial",
   "theorems": [
    "rho_normalised",
    "rho_two",
    "thermal_refuted",
    "mft_one",
    "mft_fixed",
    "mixing_refuted",
    "mean_field_none",
    "mean_field_constant",
    "boltz_order"
   ],
   "note": "False of the code: thermal_refuted (normalised within the loop), mixing_refuted. Case mean_field_case."
  },
  {
   "property": "C233",
   "status": "partial",
   "theorems": [
    "evaluate_force",
    "evaluate_refuses",
    "evaluate_virial",
    "evaluate_virial_energy",
    "evaluate_virial_refuted"
   ],
   "note": "False of the code for the virial with use_energy (evaluate_virial_refuted; what it is instead: evaluate_virial_energy)."
  },
  {
   "property": "C234",
   "status": "partial",
   "theorems": [
    "update_work",
    "update_moved",
    "updates_work",
    "no_work",
    "update_moved_refuted"
   ],
   "note": "False of the code at other positions (update_moved_refuted). Case updates_case."
  },
  {
   "property": "C235",
   "status": "partial",
   "theorems": [
    "metad_one_econs",
    "metad_econs",
    "metad_weight_refuted"
   ],
   "note": "False of the code for other weights (metad_weight_refuted). Case metad_case."
  },
  {
   "property": "C236",
   "status": "partial",
   "theorems": [
    "metad_cache",
    "hill_force",
    "metad_cache_refuted",
    "metad_shared_refuted"
   ],
   "note": "False of the code: metad_cache_refuted, metad_shared_refuted. Case hill_case."
  },
  {
   "property": "C237",
   "status": "partial",
   "theorems": [
    "bind_one",
    "bind_beads",
    "bind_refuted",
    "extras_vectors",
    "extras_refuted"
   ],
   "note": "False of the code: bind_refuted, extras_refuted."
  },
  {
   "property": "C238",
   "status": "partial",
   "theorems": [
    "json_roundtrip",
    "json_stops",
    "json_names",
    "json_lost_refuted",
    "json_names_refuted"
   ],
   "note": "False of the code: json_lost_refuted, json_names_refuted. Case json_case."
  },
  {
   "property": "C239",
   "status": "partial",
   "theorems": [
    "binary_roundtrip",
    "binary_cut",
    "binary_two",
    "binary_one_frame",
    "binary_refuted",
    "binary_names_refuted",
    "binary_cut_error"
   ],
   "note": "False of the code: binary_refuted, binary_names_refuted. Case binary_case."
  },
  {
   "property": "C240",
   "status": "partial",
   "theorems": [
    "backend_extension",
    "units_extension",
    "units_extension_refuted",
    "backend_names"
   ],
   "note": "False of the code: a pdb file without units in its comment is taken to be in atomic units by read_file_name (units_extension_refuted)."
  },
  {
   "property": "C241",
   "status": "partial",
   "theorems": [
    "remdsort_sorted",
    "remdsort_ensembles",
    "remdsort_ends",
    "property_whole",
    "extras_whole",
    "xyz_whole",
    "pdb_whole",
    "remdsort_start_refuted",
    "remdsort_ends_refuted",
    "remdsort_format_refuted",
    "remdsort_extras_refuted"
   ],
   "note": "False of the code: the four refuted theorems. remdsort_ensembles starts from the model of ReplicaExchange.step. Cases remdsort_ex, remdsort_ends_ex, remdsort_ensembles_ex, pdb_ex."
  },
  {
   "property": "C242",
   "status": "partial",
   "theorems": [
    "trimsim_cuts",
    "trimsim_swaps",
    "trimsim_continues",
    "trimsim_continues_swaps",
    "stale_line_blocks",
    "trimsim_short_refuted"
   ],
   "note": "False of the code: trimsim_short_refuted. Cases trimsim_ex, stale_line_ex."
  },
  {
   "property": "C243",
   "status": "partial",
   "theorems": [
    "remd_names",
    "trim_names",
    "swapfile_name",
    "remd_names_refuted",
    "trim_names_refuted",
    "remd_trim_keys"
   ],
   "note": "False of the code: remd_names_refuted, trim_names_refuted. Case names_ex."
  },
  {
   "property": "C244",
   "status": "partial",
   "theorems": [
    "interactive_run",
    "interactive_split",
    "interactive_script",
    "interactive_count",
    "interactive_exit",
    "interactive_exits",
    "interactive_zero_refuted",
    "interactive_finished_refuted",
    "interactive_silent_refuted",
    "frame_strides"
   ],
   "note": "False of the code: the three refuted theorems. Cases script_case, script_exit_case."
  },
  {
   "property": "C245",
   "status": "partial",
   "theorems": [
    "interactive_properties",
    "interactive_unit_refuted",
    "interactive_dimension_refuted"
   ],
   "note": "False of the code: the two refuted theorems. Case properties_case."
  },
  {
   "property": "C246",
   "status": "partial",
   "theorems": [
    "structures_round_trip",
    "structures_set",
    "structures_cell_refuted",
    "structures_short_refuted"
   ],
   "note": "False of the code: the two refuted theorems. Cases structures_case, structures_set_case."
  },
  {
   "property": "C247",
   "status": "proved",
   "theorems": [
    "thermalize_conserved",
    "thermalize_com",
    "thermalize_scale"
   ],
   "note": "Exact real arithmetic; one direction of space; the masses of the normal modes are those of the beads. Case thermalize_case."
  },
  {
   "property": "C248",
   "status": "partial",
   "theorems": [
    "read_output_values",
    "read_output_names",
    "read_output_twice_refuted",
    "trajectory_step",
    "trajectory_step_refuted",
    "read_extras_frames",
    "read_extras_mixed",
    "extras_text",
    "extras_text_refuted",
    "trajectory_step_last"
   ],
   "note": "False of the code: the refuted theorems. Cases read_output_case, extras_case."
  },
  {
   "property": "C249",
   "status": "partial",
   "theorems": [
    "beads_in_their_files",
    "one_bead",
    "flush_bound",
    "no_flush",
    "missing_bead_refuted"
   ],
   "note": "False of the code: missing_bead_refuted. Cases beads_case, one_bead_case, flush_case."
  },
  {
   "property": "C250",
   "status": "partial",
   "theorems": [
    "extras_numbers",
    "extras_tables",
    "extras_own",
    "extras_unknown",
    "extras_read_back",
    "extras_raw_refuted",
    "extras_order_refuted"
   ],
   "note": "False of the code: extras_raw_refuted, extras_order_refuted. Cases extras_write_case, extras_tables_case."
  },
  {
   "property": "C251",
   "status": "partial",
   "theorems": [
    "centroid_halves",
    "v_centroid_half",
    "centroid_halves_refuted"
   ],
   "note": "False of the code with an odd number of beads: centroid_halves_refuted. Case centroid_case."
  },
  {
   "property": "C252",
   "status": "partial",
   "theorems": [
    "dmd_counts",
    "dmd_time",
    "dmd_refuses",
    "dmd_force_time",
    "dmd_restart_steady",
    "dmd_systems_refuted",
    "dmd_restart_refuted"
   ],
   "note": "False of the code: dmd_systems_refuted, dmd_restart_refuted. Cases dmd_case, dmd_force_case."
  },
  {
   "property": "C253",
   "status": "proved",
   "theorems": [
    "direct_weights",
    "direct_bounds",
    "direct_shift",
    "direct_agree"
   ],
   "note": "Case direct_case."
  },
  {
   "property": "C254",
   "status": "proved",
   "theorems": [
    "cea_covariance",
    "cea_mean",
    "cea_first_order"
   ],
   "note": "A case with numbers is in uncertainty_refuted."
  },
  {
   "property": "C255",
   "status": "partial",
   "theorems": [
    "uncertainty_total",
    "uncertainty_agree",
    "uncertainty_refuted",
    "uncertainty_spurious",
    "tables_positive",
    "tables_negative_refuted"
   ],
   "note": "False of the code: CEA is called with potentials and observables exchanged (uncertainty_agree, uncertainty_refuted, uncertainty_spurious), and a negative stride always fails (tables_negative_refuted)."
  },
  {
   "property": "C256",
   "status": "partial",
   "theorems": [
    "para_weight",
    "para_weight_bounds",
    "para_lines",
    "para_skipped",
    "para_lines_refuted",
    "slots_aligned",
    "slots_refuted",
    "para_accepts_refuted"
   ],
   "note": "False of the code: lines before the first frame counted all get 0 (para_lines_refuted), files with different strides use the sums of one another (slots_refuted), and no simulation is accepted at all (para_accepts_refuted). Case para_case."
  },
  {
   "property": "C257",
   "status": "partial",
   "theorems": [
    "contract_numbers",
    "contract_centroid",
    "contract_cell",
    "contract_cell_refuted",
    "contract_units_refuted"
   ],
   "note": "False of the code: a cell in angstrom is converted once too often, and the comment loses the name of the quantity, so its units are not recognised when read."
  },
  {
   "property": "C258",
   "status": "partial",
   "theorems": [
    "mux_frames",
    "mux_short_refuted",
    "mux_wrap_refuted"
   ],
   "note": "False of the code: with a shorter later file an incomplete frame is written (mux_short_refuted); wrap and unwrap always fail (mux_wrap_refuted). Case mux_case."
  },
  {
   "property": "C259",
   "status": "proved",
   "theorems": [
    "tool_kinetic"
   ],
   "note": ""
  },
  {
   "property": "C260",
   "status": "partial",
   "theorems": [
    "tag_buffer",
    "tag_window",
    "tag_constant",
    "tag_refuted"
   ],
   "note": "False of the code: the number of atoms is a float and the arrays cannot be made (tag_refuted); the theorems are about the part after it."
  },
  {
   "property": "C261",
   "status": "proved",
   "theorems": [
    "fixcom_frames",
    "fixcom_centre",
    "fixcom_rigid"
   ],
   "note": "Case fixcom_case."
  },
  {
   "property": "C262",
   "status": "partial",
   "theorems": [
    "eff_above",
    "eff_mean",
    "eff_skip",
    "eff_few_refuted"
   ],
   "note": "The last sentence is a defect shown by eff_few_refuted. Case eff_case."
  },
  {
   "property": "C263",
   "status": "partial",
   "theorems": [
    "header_found",
    "header_range",
    "get_column",
    "get_range_refuted",
    "get_prefix_refuted",
    "get_both_refuted"
   ],
   "note": "False of the code for the name itself: another property with the same beginning is printed, or nothing when both are there; a property of several columns ends in an error. Case get_case."
  },
  {
   "property": "C264",
   "status": "partial",
   "theorems": [
    "acf_even",
    "acf_odd_constant",
    "acf_default_refuted",
    "acf_wrap_refuted"
   ],
   "note": "Proved for even blocks. False of the code for odd ones, among them the default 2 mlag + 1: irfft gives one point less than the block and vectors that do not change give n/(n-1) times the value (acf_odd_constant, acf_default_refuted). acf_wrap_refuted: the products go around the end of the block. Case acf_case."
  },
  {
   "property": "C265",
   "status": "proved",
   "theorems": [
    "spectrum_inverse",
    "spectrum_sum",
    "spectrum_mirror",
    "window_shape"
   ],
   "note": "Case acf_case."
  },
  {
   "property": "C266",
   "status": "proved",
   "theorems": [
    "acf_blocks",
    "block_error",
    "acf_outcome"
   ],
   "note": "Case acf_case."
  },
  {
   "property": "C267",
   "status": "proved",
   "theorems": [
    "chosen_spec",
    "derivative_quadratic"
   ],
   "note": ""
  },
  {
   "property": "C268",
   "status": "partial",
   "theorems": [
    "getacf_rows",
    "getacf_zero_refuted"
   ],
   "note": "False of the code for -mlag 0: 100 is used and two empty files are written. Without padding the last lag is missing."
  },
  {
   "property": "C269",
   "status": "partial",
   "theorems": [
    "gle_canonical",
    "gle_diffusion",
    "cqp_scaled",
    "cqp_canonical",
    "cqp_refuted"
   ],
   "note": "False of the code in the row and column of q, which are divided instead of multiplied by the frequency at the end (cqp_refuted): what is returned is the covariance over w^2 for each index of q (cqp_scaled), and for a canonical thermostat diag(1/w^6, 1, ..., 1) (cqp_canonical). The part the kernel uses is right."
  },
  {
   "property": "C270",
   "status": "proved",
   "theorems": [
    "kernel_resolvent",
    "kernel_white",
    "omlist_positive"
   ],
   "note": "For eigenvectors of the drift, whose eigenvalues are the roots taken. Case kernel_case."
  },
  {
   "property": "C271",
   "status": "proved",
   "theorems": [
    "isra_fixed",
    "isra_positive",
    "isra_descent"
   ],
   "note": "Case isra_case."
  },
  {
   "property": "C272",
   "status": "partial",
   "theorems": [
    "error_symmetric",
    "error_refuted"
   ],
   "note": "False of the code: np.dot(f, ker) is the transposed kernel, so the exact answer has an error; true for symmetric kernels."
  },
  {
   "property": "C273",
   "status": "proved",
   "theorems": [
    "ppi_estimators",
    "virial_symmetric",
    "ppi_fast"
   ],
   "note": "For distinguishable atoms and omegan = P kb T / hbar. Case estimator_case."
  },
  {
   "property": "C274",
   "status": "proved",
   "theorems": [
    "ppi_lines",
    "ppi_short",
    "heat_lines"
   ],
   "note": "heat_lines: the same for heat_capacity_ppi. Case lines_case."
  },
  {
   "property": "C275",
   "status": "proved",
   "theorems": [
    "ppi_first_order",
    "ppi_total"
   ],
   "note": "Case first_order_case."
  },
  {
   "property": "C276",
   "status": "proved",
   "theorems": [
    "ppi_heat"
   ],
   "note": "The code leaves Boltzmann's constant out of the correction, which is one in internal units; the theorem has the factor. Case heat_case."
  },
  {
   "property": "C277",
   "status": "partial",
   "theorems": [
    "search_found",
    "extract_spec",
    "extract_total",
    "extract_column",
    "extract_refuted"
   ],
   "note": "False of the code: the input given in the documentation has no units and is refused, so are the documented units atomic_unit, j/mol and cal/mol (the pattern takes lower case letters only), and a property of several columns before the potential moves it (extract_refuted). extract_column: true when all properties have one column. Case extract_case."
  },
  {
   "property": "C278",
   "status": "partial",
   "theorems": [
    "ppi_tools_refuted"
   ],
   "note": "False of the code: only energies_ppi and heat_capacity_ppi can; the others name an argument that does not exist or take a key that is not returned."
  },
  {
   "property": "C279",
   "status": "proved",
   "theorems": [
    "rate_mode_value",
    "reactant_partition",
    "reactant_stops",
    "many_beads",
    "reactant_limit",
    "no_modes",
    "ts_barrier"
   ],
   "note": "By the factorisation of z^P - 1 over the complex numbers. Real arithmetic. Cases rate_mode_case, stops_case."
  },
  {
   "property": "C280",
   "status": "proved",
   "theorems": [
    "double_h_entries",
    "spring_full",
    "rate_hessian_ring",
    "ring_modes",
    "inst_consistent",
    "rotations_consistent",
    "translations",
    "moi_rotation",
    "det3_is_determinant"
   ],
   "note": "The eigenvalues are given (the diagonalisation is not modelled); the product of the eigenvalues of the moment of inertia is its determinant. Cases inst_case, rot_case, ring_modes_case."
  },
  {
   "property": "C281",
   "status": "proved",
   "theorems": [
    "ring_twice",
    "rate_action",
    "splitting_action"
   ],
   "note": "Case action_case."
  },
  {
   "property": "C282",
   "status": "partial",
   "theorems": [
    "splitting_mode_value",
    "react_value",
    "splitting_element",
    "react_refuted",
    "saved_modes",
    "saved_modes_refuted",
    "saved_values"
   ],
   "note": "False of the code: eigenvalues_reactant.dat, which the help says to pass, holds eigenvalues, and the tool squares them again; freq.dat starts with a header and cannot be read (react_refuted). For splittings freq.dat also starts with six or three zeros of sum rules that were not applied (saved_modes_refuted). Case element_case."
  },
  {
   "property": "C283",
   "status": "partial",
   "theorems": [
    "checks_fine",
    "filter_ok",
    "filter_refuted"
   ],
   "note": "False of the code for an atom listed twice: one atom is deleted and two are counted (filter_refuted). Cases checks_case, filter_case."
  },
  {
   "property": "C284",
   "status": "partial",
   "theorems": [
    "interpolation",
    "interpolated_hessian",
    "interpolation_refuted"
   ],
   "note": "The last clause is false of the code: the mirror axes of the ring lie between beads before, not at the same places after, so that the first half of the longer ring is not half of it: (1,0,0,1) becomes a ring from -0.207 to 1.207 of which 1 to -0.207 is kept (interpolation_refuted)."
  },
  {
   "property": "C285",
   "status": "partial",
   "theorems": [
    "moments_solve",
    "moments_unique",
    "spline_natural",
    "resample_ends",
    "resample_straight",
    "equidistant_refuted"
   ],
   "note": "The last clause is false of the code, which spaces the parameter built from chords and not the arc length: images at 0, 1, 3/4 are moved to 0, 119/128, 3/4 (equidistant_refuted). scipy's spline is modelled as the natural cubic spline, which spline_natural checks. Case straight_case."
  },
  {
   "property": "C286",
   "status": "proved",
   "theorems": [
    "tangent_unit",
    "string_gradient",
    "string_climb",
    "climb_direction",
    "string_energy",
    "dspline_derivative",
    "tangent_derivative"
   ],
   "note": "Cases gradient_case, tangent_case."
  },
  {
   "property": "C287",
   "status": "partial",
   "theorems": [
    "step0_forces",
    "step0_refuted"
   ],
   "note": "False of the code: the path is resampled, and the forces of the beads cloned before (lines 63-65 and 1130) are handed to it; true for a path that is straight and equidistant already (step0_forces)."
  },
  {
   "property": "C288",
   "status": "proved",
   "theorems": [
    "euler_step",
    "path_converges"
   ],
   "note": "Real arithmetic."
  },
  {
   "property": "C289",
   "status": "partial",
   "theorems": [
    "stages",
    "bind_string",
    "stages_refuted",
    "bind_refuted",
    "endpoints_nothing"
   ],
   "note": "False of the code: bind reads the attribute fixatoms, which no mover has, and always fails; the climbing step reads fixmask and always fails; a climbing stage refuses any stored Hessian; the stage of the end points without their optimisation does nothing for ever (bind_refuted, stages_refuted). Reading an input with mode string also asks for an exit (ipi/inputs/motion/motion.py:373-380). Case bind_case."
  },
  {
   "property": "C290",
   "status": "partial",
   "theorems": [
    "path_ends",
    "path_straight",
    "two_geometries",
    "broken_equidistant",
    "cubic_refuted"
   ],
   "note": "The last clause is false of the code: the parameter comes from chords, and geometries at 0, 1, 3/4 become 0, 119/128, 3/4 (cubic_refuted). Cases two_case, fixed_case."
  },
  {
   "property": "C291",
   "status": "partial",
   "theorems": [
    "fixed_atoms",
    "dry_value",
    "dry_refuted"
   ],
   "note": "The last clause is false of the code: argparse converts by bool(), so that --dry False and --dry 0 switch the output off (dry_refuted). Case fixed_case."
  },
  {
   "property": "C292",
   "status": "partial",
   "theorems": [
    "level_set",
    "level_refused",
    "level_locked",
    "level_restart",
    "level_restart_refuted"
   ],
   "note": "The last clause is false of the code for the level trace, which is stored as debug (level_restart_refuted). Case level_case."
  },
  {
   "property": "C293",
   "status": "partial",
   "theorems": [
    "branch_commit",
    "detached",
    "branch_name",
    "identification_fails",
    "identification_refuted",
    "url_value",
    "url_refuted"
   ],
   "note": "The last clause is false of the code: where the reference is packed (its file missing) the commit is None, which cannot be formatted with a width, and TypeError ends the run at the banner or leaves the checkpoint empty (identification_refuted); it fails exactly then (identification_fails). An address with = is cut (url_refuted). Case branch_case."
  },
  {
   "property": "C294",
   "status": "partial",
   "theorems": [
    "comment_wellformed",
    "comment_refuted"
   ],
   "note": "The last clause is false of the code: a directory such as run--2, or run-#-2 since # is taken out, gives a comment that XML does not allow, and the checkpoint cannot be read (comment_refuted). Line ends other than the newline are not told apart. Case comment_case."
  },
  {
   "property": "C295",
   "status": "partial",
   "theorems": [
    "field_reaches",
    "field_ignored",
    "active_refuted",
    "cavity_refuted",
    "fixed_values",
    "fetch_refused"
   ],
   "note": "The last clause is false of the code: the list of active atoms of ffdirect (and others) and the workers, consolidation and batch size of ffcavphsocket are accepted and dropped; field_ignored lists all such fields. Case socket_case."
  },
  {
   "property": "C296",
   "status": "partial",
   "theorems": [
    "restart_same",
    "sim_entries",
    "committee_written",
    "committee_refuted"
   ],
   "note": "The last clause is false of the code: a committee may have ffdirect members but its store has no branch for them, so that writing a checkpoint raises TypeError (committee_refuted); committee_written gives the exact condition. Case committee_case."
  },
  {
   "property": "C297",
   "status": "proved",
   "theorems": [
    "socket_checked"
   ],
   "note": "Case check_case."
  },
  {
   "property": "C298",
   "status": "partial",
   "theorems": [
    "thermostat_built",
    "stored_over",
    "thermostat_stored",
    "thermostat_restart",
    "thermostat_refused",
    "thermostat_checked",
    "multi_refuted"
   ],
   "note": "The last clause is false of the code: since the copy of the attributes in line 344 is shallow, multi is also an allowed mode of the thermostats inside, where it raises TypeError; thermostat_refused gives the exact condition (the other case is an unknown flip, which is not checked). Cases multi_case, check_case."
  },
  {
   "property": "C299",
   "status": "proved",
   "theorems": [
    "barostat_built",
    "barostat_restart"
   ],
   "note": "Case baro_case."
  },
  {
   "property": "C300",
   "status": "partial",
   "theorems": [
    "smotion_built",
    "smotion_restart",
    "index_bound",
    "updates",
    "inner_multi_refuted"
   ],
   "note": "The last clause is false of the code: the options of the mode are shared by a shallow copy, so that an inner smotion may have the mode multi, for which the dummy is built without a message. Cases remd_case, index_case, update_case."
  },
  {
   "property": "C301",
   "status": "partial",
   "theorems": [
    "checkpoint_read",
    "last_counts",
    "checkpoint_unreadable",
    "checkpoint_checked",
    "checkpoint_refuted"
   ],
   "note": "The last clause is false of the code: parse catches ValueError for the sake of empty tags, so that an unreadable stride or overwrite is taken as the default, and all attributes after it and the step are dropped (checkpoint_unreadable states this in full). Case read_case."
  },
  {
   "property": "C302",
   "status": "proved",
   "theorems": [
    "outputs_stored",
    "outputs_kinds"
   ],
   "note": "Case stored_case."
  },
  {
   "property": "C303",
   "status": "partial",
   "theorems": [
    "entry_read",
    "entry_refused",
    "queue_read",
    "queue_refused",
    "checkpoint_entries_refuted"
   ],
   "note": "The last clause is false of the code: fetch is called with initclass for every checkpoint entry, which the fetch of momenta, velocities and cells does not take, so these entries end in a TypeError although chk is an allowed mode of them. entry_refused gives the exact condition. Case file_case."
  },
  {
   "property": "C304",
   "status": "proved",
   "theorems": [
    "cell_sizes",
    "cell_upper",
    "cell_manual",
    "cell_abc",
    "cell_abcABC"
   ],
   "note": "Real numbers for floats. Case abcABC_case."
  },
  {
   "property": "C305",
   "status": "proved",
   "theorems": [
    "modes_bound",
    "modes_refused",
    "modes_restart",
    "modes_copied",
    "modes_rebound"
   ],
   "note": "Indices are naturals, labels numbers. Case boson_case."
  },
  {
   "property": "C306",
   "status": "proved",
   "theorems": [
    "forces_stored",
    "forces_restart"
   ],
   "note": "Values as they are stored; text and units are other areas. Case ens_case has a component."
  },
  {
   "property": "C307",
   "status": "proved",
   "theorems": [
    "ens_restart",
    "ens_weights",
    "ens_given"
   ],
   "note": "Case ens_case."
  },
  {
   "property": "C308",
   "status": "partial",
   "theorems": [
    "direct_block",
    "inet_block",
    "socket_refused",
    "unix_block",
    "unix_mode_refuted"
   ],
   "note": "The clause on the mode is false of the code for unix sockets: the mode is not written, so the block is read as an internet socket at port 65535 (unix_block says what is read instead). Cases direct_case, inet_case."
  },
  {
   "property": "C309",
   "status": "partial",
   "theorems": [
    "motion_block",
    "motion_thermostat",
    "motion_thermostat_refuted"
   ],
   "note": "The clause on thermostats given is false of the code: xml_thermostat is assigned only if none is given, so that giving one is an UnboundLocalError. motion_block has the rest."
  },
  {
   "property": "C310",
   "status": "partial",
   "theorems": [
    "simulation_beads",
    "simulation_temperature",
    "simulation_outputs",
    "simulation_masses",
    "set_masses_refuted"
   ],
   "note": "The last clause is false of the code: it looks for an array called mass, while masses set for atoms are in an array called masses and are ignored (simulation_masses has the exact rule). Case simulation_case."
  },
  {
   "property": "C311",
   "status": "partial",
   "theorems": [
    "arctan2_angle",
    "rotate_x_rotation",
    "conform_upper",
    "conform_same",
    "not_periodic",
    "slab_refuted",
    "left_handed_refuted"
   ],
   "note": "False of the code for structures that are not periodic in all three directions, which keep the cell they have (not_periodic, slab_refuted), and for left handed cells, whose last diagonal entry is negative (left_handed_refuted; conform_upper gives its exact sign). The rest is proved for all fully periodic structures, given that Atoms.rotate(a, 'x') of ASE is a rotation of a into x. Case tilted_case."
  },
  {
   "property": "C312",
   "status": "proved",
   "theorems": [
    "mass_refused",
    "conform_same",
    "not_periodic"
   ],
   "note": "Case tilted_case."
  },
  {
   "property": "C313",
   "status": "proved",
   "theorems": [
    "correction_between",
    "avg_own",
    "err_single",
    "err_own",
    "avg_harmonic",
    "harmonic_first",
    "batch_weight_le",
    "reweighted",
    "err_two"
   ],
   "note": "Cases between_case, own_case, err_case, harmonic_case. nan_to_num is left out."
  },
  {
   "property": "C314",
   "status": "proved",
   "theorems": [
    "energy_is_derivative",
    "row_values"
   ],
   "note": "Case derivative_case."
  },
  {
   "property": "C315",
   "status": "partial",
   "theorems": [
    "report_lines",
    "report_ends",
    "converged_refuted",
    "no_sum_rule_refuted"
   ],
   "note": "False of the code: a calculation with fewer iterations than the largest number ends in an IndexError after its lines, since the loop catches IOError where lists are indexed (converged_refuted), and for asr other than crystal or poly the number of skipped modes is not bound (no_sum_rule_refuted). report_ends says exactly when it ends well. Case lines_case."
  },
  {
   "property": "C316",
   "status": "partial",
   "theorems": [
    "key_recovered",
    "convert_same",
    "pdb_lengths",
    "pdb_default",
    "eforces_refuted"
   ],
   "note": "False of the code for Eforces, whose label is matched by the pattern of forces and which is written as forces (eforces_refuted); proved for all other quantities. Cases convert_case, pdb_case."
  },
  {
   "property": "C317",
   "status": "partial",
   "theorems": [
    "no_label_error",
    "plain_file_refuted",
    "other_units_error"
   ],
   "note": "False of the code: if the comment of the first frame has no label the name of the quantity is not bound and the tool ends in an UnboundLocalError (plain_file_refuted; no_label_error says exactly when). This holds in particular for trajectories that i-PI wrote in units with other characters, such as ev/ang (other_units_error). Case other_units_case."
  },
  {
   "property": "C318",
   "status": "partial",
   "theorems": [
    "atom_numbers",
    "atom_record",
    "bonds",
    "two_bonds",
    "number_of_bonds",
    "two_beads_refuted"
   ],
   "note": "False of the code for two beads, where every bond is written twice (two_beads_refuted). The rest is proved for all numbers. Case ring_case. Records instead of text."
  },
  {
   "property": "C319",
   "status": "partial",
   "theorems": [
    "merged_frames",
    "merged_values",
    "no_files_refuted"
   ],
   "note": "False of the code if no file has the prefix, which ends in an UnboundLocalError (no_files_refuted); proved for one or more files with equal numbers of atoms. Case merged_case."
  },
  {
   "property": "C320",
   "status": "partial",
   "theorems": [
    "frames_used",
    "last_frames_ignored",
    "few_frames_refuted"
   ],
   "note": "False of the code: files are only written when the number of frames read is a multiple of a hundred, so up to 99 frames at the end are ignored (last_frames_ignored) and shorter trajectories leave no files (few_frames_refuted). frames_used says exactly which frames count. Case used_case."
  },
  {
   "property": "C321",
   "status": "proved",
   "theorems": [
    "value",
    "corrected_value",
    "no_correction",
    "shells_fill"
   ],
   "note": "Case value_case. What the compiled functions add for a frame is a parameter, except that squared forces multiply the histogram."
  },
  {
   "property": "C322",
   "status": "partial",
   "theorems": [
    "json_round_trip",
    "order_refuted",
    "value_refuted",
    "normal_same",
    "back_normal",
    "back_twice"
   ],
   "note": "False of the code for the order of children with different names: those of one name are collected at the place of the first (order_refuted), so that for example the order of outputs or of force fields changes. Children called value become the text of their parent (value_refuted). For all inputs without children called value or attributes, attributes, texts and the children of each name in their order are kept, at every level (json_round_trip, whose last part is again about converted children). Case round_case. Inputs with their text first and their children grouped by name come back exactly (normal_same), everything read back is of this kind (back_normal), so a second conversion changes nothing (back_twice)."
  },
  {
   "property": "C323",
   "status": "proved",
   "theorems": [
    "parse_whole",
    "parse_content"
   ],
   "note": "For contents that are not themselves a single child called simulation. Case content_case."
  },
  {
   "property": "C324",
   "status": "proved",
   "theorems": [
    "pbc_everywhere",
    "pbc_attributes",
    "pbc_rest",
    "pbc_twice"
   ],
   "note": "Case pbc_case. Layout and comments are left out."
  }
 ]
}