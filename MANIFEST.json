{
 "claims": [
  {
   "property": "C01",
   "status": "proved",
   "theorems": [
    "C01_output_times_exact",
    "C01_output_times_exact_b64"
   ],
   "note": "Exact arithmetic (equality) and binary64 (the recorded time compares equal to the rounded t0 + k*t_step), for parameters far from overflow."
  },
  {
   "property": "C02",
   "status": "proved",
   "theorems": [
    "C02_no_overshoot",
    "C02_no_overshoot_b64"
   ],
   "note": "Exact arithmetic and binary64."
  },
  {
   "property": "C03",
   "status": "proved",
   "theorems": [
    "C03_dt_at_least_min",
    "C03_dt_at_most_max",
    "C03_dt_at_most_max_b64"
   ],
   "note": "Lower bound for any arithmetic; upper bound for the program's own initial step (exact) and for any initial step within the bound (binary64)."
  },
  {
   "property": "C04",
   "status": "proved",
   "theorems": [
    "C04_accepted_within_dumax"
   ],
   "note": "Any arithmetic. A NaN vmax makes the test false, so such a step is accepted."
  },
  {
   "property": "C05",
   "status": "proved",
   "theorems": [
    "C05_rejected_trial_rolled_back",
    "C04_accepted_within_dumax"
   ],
   "note": "Any arithmetic; the step counter is the number of accepted trials (C04)."
  },
  {
   "property": "C06",
   "status": "proved",
   "theorems": [
    "C06_time_forward",
    "C06_time_never_decreases_b64"
   ],
   "note": ""
  },
  {
   "property": "C07",
   "status": "partial",
   "theorems": [
    "C07_time_loop_ends_partial",
    "C07_time_loop_ends_b64_partial",
    "C07_time_loop_ends_refuted"
   ],
   "note": "Exact arithmetic: ends, with a bound independent of the solver. Binary64: ends as soon as min(dt) is at least 2^-48 of the largest time of the run (and 2^-1000), for every behaviour of the solver; missing: smaller min(dt), where the claim is false: min(dt) below half an ulp of the time makes the loop run for ever (witness)."
  },
  {
   "property": "C08",
   "status": "proved",
   "theorems": [
    "C08_exit_status"
   ],
   "note": "Any arithmetic."
  },
  {
   "property": "C09",
   "status": "proved",
   "theorems": [
    "C09_retry_smaller",
    "C09_retry_smaller_b64"
   ],
   "note": ""
  },
  {
   "property": "C10",
   "status": "proved",
   "theorems": [
    "C10_growth_bounded"
   ],
   "note": "Exact arithmetic, after any history of calls."
  },
  {
   "property": "C100",
   "status": "partial",
   "theorems": [
    "C100_started",
    "C100_no_settings",
    "C100_verify_partial",
    "C100_verify_refuted",
    "C100_list_refuted",
    "C100_unknown_section"
   ],
   "note": "false of the code: --verify ignores the result of reading the file, so it shows the defaults with status 0 for a missing or empty file (C100_verify_refuted). A file which is a list is taken for an empty map (C100_list_refuted), and a section with an unknown name is ignored (C100_unknown_section)."
  },
  {
   "property": "C101",
   "status": "partial",
   "theorems": [
    "C101_assembly_partial",
    "C101_two_runs_partial",
    "C101_sequential",
    "C101_parallel_refuted",
    "C101_reduce_partial",
    "C101_minimum"
   ],
   "note": "binary64. With the sequential policy (ENABLE_SEQ) the assembled matrix is the same bit for bit. With the parallel policy (the default) it is the same up to rounding: n additions are within n 2^-52 times the sum of the absolute values of the exact sum, for every schedule (no overflow near: sums below 2^1000, fewer than 2^50 terms), hence two runs within twice that; same bound for the reductions of averages; the minimum of a reduction is unique without NaN. False bit for bit: three threads adding 1, 2^-53, 2^-53 give 1 or 1+2^-52. Missing, as false: equality; the propagation of the rounding differences through the solver."
  },
  {
   "property": "C102",
   "status": "partial",
   "theorems": [
    "C102_line_partial",
    "C102_energies_partial",
    "C102_first_line",
    "C102_energy_time_refuted",
    "C102_max_dm",
    "C102_recenter_view"
   ],
   "note": "Any arithmetic, solver and recentering. dt, max_dm and the averages of a line are those of the last accepted step (or of the start of the run); the energies are those of the same configuration, recentering included, when the applied field does not depend on time. False otherwise: on every line that follows a step the energies were computed with the field at the time the step started (C102_energy_time_refuted), because compute_all is called before the time is advanced."
  },
  {
   "property": "C103",
   "status": "partial",
   "theorems": [
    "C103_potentials_partial",
    "C103_stale_potentials",
    "C103_recenter_refuted"
   ],
   "note": "Proved without recentering. With recentering, the step that follows a shift uses the shifted magnetization with the potentials computed before the shift (C103_stale_potentials for the code's recenter on any mesh; C103_recenter_refuted is such a run)."
  },
  {
   "property": "C104",
   "status": "partial",
   "theorems": [
    "C104_restart_partial",
    "C104_repeat",
    "C104_bad_file",
    "C104_time_refuted"
   ],
   "note": "Magnetization and potential are restored to the printed digits (exactly with 17 digits), initial_time replaces the time of the file, and the first line of the restarted run is for that time and configuration; with 17 digits, initial_time set to the time of the snapshot and no recentering it repeats the line of the snapshot (C104_repeat). Limits of C41 apply (spin columns, nodes without magnetization). The time of the file itself is only kept to 7 digits, whatever the precision asked for (C104_time_refuted)."
  },
  {
   "property": "C105",
   "status": "partial",
   "theorems": [
    "C105_potential_file",
    "C105_solved",
    "C105_message_refuted"
   ],
   "note": "Contents of the file for every potential, read back with the stream operators. False: the message which says that the file is written comes exactly when it could not be written (C105_message_refuted)."
  },
  {
   "property": "C106",
   "status": "partial",
   "theorems": [
    "C106_names_partial",
    "C106_contents",
    "C106_two_runs",
    "C106_directory_refuted",
    "C106_earlier_run_refuted"
   ],
   "note": "For all runs: no file is opened twice, what is written stays, other files do not change, and runs with different names have no file in common. False: the file of the potential is written in the current directory and not in the output directory (C106_directory_refuted). A run with the name of an earlier one, as when a run is restarted, empties the table of the earlier one and replaces its snapshots (C106_earlier_run_refuted). File names are texts: links and equivalent spellings of a path are not modelled."
  },
  {
   "property": "C107",
   "status": "proved",
   "theorems": [
    "C107_macrospin",
    "C107_equation",
    "C107_sense",
    "C107_run"
   ],
   "note": "Exact reals, exact solution of the assembled system; the field and the damping of the scheme are written out (scheme_field, scheme_damping). No surface anisotropy, spin torque, drift or cubic anisotropy. The demagnetizing field is an input: it is uniform in an ellipsoid only. Ms and A may differ between the elements."
  },
  {
   "property": "C108",
   "status": "proved",
   "theorems": [
    "C108_convergence"
   ],
   "note": "Exact reals; composes C107. Any theta in [0, 1], with or without FIRST_ORDER. The constants C and h0 are explicit in the proof (conv_const, lips) and depend on the fields, gamma0 and the final time only, not on the mesh. Uniform samples only: for a non-uniform magnetization the convergence in space and time is not proved. Second order for the defaults: C109."
  },
  {
   "property": "C109",
   "status": "proved",
   "theorems": [
    "C109_second_order"
   ],
   "note": "Exact reals; composes C107. This is what the effective damping of C48 is for: its correction is the term of second order of the equation. Uniform samples only."
  },
  {
   "property": "C11",
   "status": "proved",
   "theorems": [
    "C11_no_sliver",
    "C11_short_stride_aborts_refuted"
   ],
   "note": "The guard 3*min(dt) is needed: the second theorem exhibits a run given up for no reason below it."
  },
  {
   "property": "C110",
   "status": "proved",
   "theorems": [
    "C110_dissipation",
    "C110_relaxation"
   ],
   "note": "Exact reals; composes C107. Any theta in [0, 1], with or without FIRST_ORDER. The velocity kept from the previous step enters the field of the next: the proof shows it never exceeds twice the one of the equation. Uniform samples only; C95 is the statement for any magnetization, for one step."
  },
  {
   "property": "C111",
   "status": "proved",
   "theorems": [
    "C111_energies",
    "C111_total",
    "C111_run"
   ],
   "note": "Exact reals. Composes C40, C53, C75, C78 (energies of the elements and jump of the magnetization on the faces) with C110. The demagnetizing field is taken uniform, which ellipsoids have; no surface whose charges are suppressed. C111_run: no surface anisotropy, time step below the threshold of C110."
  },
  {
   "property": "C112",
   "status": "partial",
   "theorems": [
    "C112_energies",
    "C112_outer_jump",
    "C112_surface_torque_partial",
    "C112_inward_torque",
    "C112_added_triangles_refuted",
    "C112_suppressed_refuted",
    "C112_exact",
    "C112_interface_refuted",
    "C112_without_anisotropy"
   ],
   "note": "Exact reals; C112_interface_refuted also in double precision. Area, charge, demagnetizing energy and surface anisotropy energy: proved for every order. The torque of the surface anisotropy is divided by the signed jump of Ms: it is right for a triangle whose normal points outwards (C112_surface_torque_partial) and has the wrong sign for one whose normal points inwards (C112_inward_torque); triangles the program adds itself can be inwards (C112_added_triangles_refuted). A surface whose charges are suppressed loses its surface anisotropy as well (C112_suppressed_refuted). With a surface anisotropy between two materials of the same Ms the torque is a division by zero and every time step is refused (C112_interface_refuted; C112_exact: the model used there is the real one when the jump is not zero). C112_without_anisotropy: a triangle that is not magnetic, or without surface anisotropy, has no effect in a step."
  },
  {
   "property": "C113",
   "status": "proved",
   "theorems": [
    "C113_accepted",
    "C113_refused",
    "C113_double"
   ],
   "note": "Any arithmetic with the IEEE rules on non-finite numbers; both instances (double precision, exact) are proved to have them. The unknowns themselves can overflow in the solver: not claimed."
  },
  {
   "property": "C114",
   "status": "proved",
   "theorems": [
    "C114_step",
    "C114_fields",
    "C114_energies",
    "C114_vertex_order",
    "C114_potential",
    "C114_computed_potential"
   ],
   "note": "Exact reals (in floating point the sums are rounded differently). C114_step takes the potentials at the nodes as given, the same in both meshes; C114_potential and C114_computed_potential prove that those of the demagnetizing field are (up to the accuracy of the fast multipole method, which is an argument). The jump of Ms of a triangle is the same for the surface anisotropy of the step (an order that reverses the triangle changes it: C112), and follows the orientation in the energies. C114_fields: uniform fields, fields given in space and fields interpolated from the nodes are the same in both meshes."
  },
  {
   "property": "C115",
   "status": "partial",
   "theorems": [
    "C115_alone",
    "C115_concurrent_partial",
    "C115_one_starts",
    "C115_parents_refuted",
    "C115_together_refuted"
   ],
   "note": "C115_alone: one program, any file system: it goes on exactly when the directory exists or its existing parent accepts it; then it exists, nothing else has changed; when it stops nothing has changed. C115_concurrent_partial: any number of programs, directories and interleavings: nothing that existed changes, the only new names are directories reported as created, and a program that goes on has its directory. C115_one_starts: at least one of the programs given the same new directory creates it. Missing, because false of the code: the directories above are not created (C115_parents_refuted), and of two programs started together with the same new directory one can exit because the other has just created it (C115_together_refuted). Symbolic links, full disks and other programs that remove directories are not modelled."
  },
  {
   "property": "C12",
   "status": "proved",
   "theorems": [
    "C12_line_count",
    "C12_last_line_past_final_time"
   ],
   "note": "Second theorem: the last line may be past final_time."
  },
  {
   "property": "C13",
   "status": "partial",
   "theorems": [
    "C13_signals_partial",
    "C13_saved_is_accepted_refuted"
   ],
   "note": "All of it but the last clause; the saved configuration is the last accepted one only if recentering is off and no trial was refused by max(du) since (witness of the contrary)."
  },
  {
   "property": "C14",
   "status": "proved",
   "theorems": [
    "C14_snapshots"
   ],
   "note": "Any arithmetic; save_period >= 0."
  },
  {
   "property": "C15",
   "status": "proved",
   "theorems": [
    "C15_statistics"
   ],
   "note": "Exact arithmetic."
  },
  {
   "property": "C16",
   "status": "proved",
   "theorems": [
    "C16_order_irrelevant"
   ],
   "note": "Exact arithmetic."
  },
  {
   "property": "C17",
   "status": "proved",
   "theorems": [
    "C17_basis_orthonormal"
   ],
   "note": "Exact arithmetic; both values of PARANOID_ORTHONORMALIZATION."
  },
  {
   "property": "C18",
   "status": "proved",
   "theorems": [
    "C18_step_on_sphere",
    "C18_unit_sphere_invariant"
   ],
   "note": "Exact arithmetic; the invariant covers failed, refused and accepted trials in any order."
  },
  {
   "property": "C19",
   "status": "proved",
   "theorems": [
    "C19_velocity_tangent"
   ],
   "note": "Exact arithmetic."
  },
  {
   "property": "C20",
   "status": "proved",
   "theorems": [
    "C20_angle_irrelevant"
   ],
   "note": "Exact arithmetic."
  },
  {
   "property": "C21",
   "status": "proved",
   "theorems": [
    "C21_sparse_map",
    "C21_outside_shape_refuted"
   ],
   "note": "Any arithmetic. The second theorem shows that the documented precondition (position in the shape) is needed once assertions are compiled out."
  },
  {
   "property": "C22",
   "status": "proved",
   "theorems": [
    "C22_concurrent_add_serializable",
    "C22_no_lost_update",
    "C22_progress",
    "C22_mutual_exclusion"
   ],
   "note": "Interleaving semantics of lock/load/store/unlock; the mutexes make every access to a row ordered, so sequential consistency is enough."
  },
  {
   "property": "C23",
   "status": "proved",
   "theorems": [
    "C23_mult"
   ],
   "note": "Exact arithmetic, finite values."
  },
  {
   "property": "C24",
   "status": "proved",
   "theorems": [
    "C24_diag_precond",
    "C24_diag_precond_exact"
   ],
   "note": ""
  },
  {
   "property": "C25",
   "status": "proved",
   "theorems": [
    "C25_monitor_verdict",
    "C25_monitor_exact",
    "C25_monitor_nan",
    "C25_counter"
   ],
   "note": "Any arithmetic, exact reals, and a double NaN."
  },
  {
   "property": "C26",
   "status": "proved",
   "theorems": [
    "C26_solvers_stop"
   ],
   "note": "Any arithmetic, all five entry points. A pass is one evaluation of the loop condition with the body that follows."
  },
  {
   "property": "C27",
   "status": "proved",
   "theorems": [
    "C27_converged_residual",
    "C27_double_overflow_refuted"
   ],
   "note": "Extended real arithmetic (exact, with infinities and NaN). The second theorem shows that in double precision an overflow of the squared norm breaks the property."
  },
  {
   "property": "C28",
   "status": "proved",
   "theorems": [
    "C28_dirichlet_generic",
    "C28_dirichlet_values"
   ],
   "note": "Double precision (and exact arithmetic through the generic form)."
  },
  {
   "property": "C29",
   "status": "proved",
   "theorems": [
    "C26_solvers_stop",
    "C29_good_guess_untouched"
   ],
   "note": "Verdict in any arithmetic; untouched guess in exact arithmetic."
  },
  {
   "property": "C30",
   "status": "proved",
   "theorems": [
    "C30_positions_exist",
    "C30_assembled",
    "C30_stored_positions"
   ],
   "note": "Exact arithmetic for the values of the assembled matrix; any work split and any interleaving of the threads."
  },
  {
   "property": "C31",
   "status": "proved",
   "theorems": [
    "C31_vector",
    "C31_rhs"
   ],
   "note": "Exact arithmetic."
  },
  {
   "property": "C32",
   "status": "proved",
   "theorems": [
    "C32_solve_outcome",
    "C32_solution",
    "C32_absolute_check_refuted"
   ],
   "note": "C32_solve_outcome holds in any arithmetic; C32_solution in exact arithmetic. The residual test of solve is absolute while convergence is relative, so a converged solution can be refused: a finding recorded as C32_absolute_check_refuted, the property itself holds."
  },
  {
   "property": "C33",
   "status": "proved",
   "theorems": [
    "C33_nonmagnetic",
    "C33_magnetic_diagonal"
   ],
   "note": "C33_nonmagnetic in any IEEE-like arithmetic, the diagonal in exact arithmetic."
  },
  {
   "property": "C34",
   "status": "proved",
   "theorems": [
    "C34_renumbering"
   ],
   "note": "For every permutation std::sort may return."
  },
  {
   "property": "C35",
   "status": "partial",
   "theorems": [
    "C35_sorted",
    "C35_longest_axis_partial",
    "C35_longest_axis_refuted",
    "C35_bounds"
   ],
   "note": "Sortedness in full. The choice of the axis is proved when every axis has a node coordinate of at least the smallest positive normal number, and refuted otherwise: maxNodes starts from __DBL_MIN__, which is positive."
  },
  {
   "property": "C36",
   "status": "proved",
   "theorems": [
    "C36_edges"
   ],
   "note": "For every result std::sort may return; tetrahedra have four distinct nodes (degenerate ones are refused by the constructor)."
  },
  {
   "property": "C37",
   "status": "proved",
   "theorems": [
    "C37_marking"
   ],
   "note": ""
  },
  {
   "property": "C38",
   "status": "proved",
   "theorems": [
    "C38_accepted"
   ],
   "note": "For tetrahedra with four different nodes and any result of std::sort."
  },
  {
   "property": "C39",
   "status": "proved",
   "theorems": [
    "C39_triangles",
    "C39_regions"
   ],
   "note": "For tetrahedra with four different nodes and any result of std::sort."
  },
  {
   "property": "C40",
   "status": "proved",
   "theorems": [
    "C40_jump",
    "C40_order_of_nodes"
   ],
   "note": "For oriented tetrahedra with four different nodes and any result of std::sort."
  },
  {
   "property": "C41",
   "status": "partial",
   "theorems": [
    "C41_restore_partial",
    "C41_exact",
    "C41_error",
    "C41_same_file",
    "C41_metadata_refuted",
    "C41_nan_refuted",
    "C41_spin_refuted",
    "C41_white_space",
    "C41_failed_read"
   ],
   "note": "Files without spin columns, finite values: every node gets back its values rounded to 8 digits (exact with 17 digits), the time rounded to 7; saving again gives the same file. Refuted for files with NaN values or spin columns and for a user metadata named 'time'."
  },
  {
   "property": "C42",
   "status": "proved",
   "theorems": [
    "C42_average"
   ],
   "note": "Exact arithmetic; any order of the reduction."
  },
  {
   "property": "C43",
   "status": "partial",
   "theorems": [
    "C43_max_angle",
    "C43_nonmagnetic_refuted"
   ],
   "note": "C43_max_angle: exact arithmetic, unit vectors at the ends of all edges (a mesh with magnetic nodes only), any order of the reduction. False with non-magnetic regions: their nodes have magnetization NaN, all edges are reduced, and std::min with NaN depends on the grouping: 0 or 180 degrees for the same configuration."
  },
  {
   "property": "C44",
   "status": "partial",
   "theorems": [
    "C44_initial_magnetization",
    "C44_zero_vector_refuted"
   ],
   "note": "Unit length is proved when the user's function does not return the zero vector; a zero vector is kept as it is."
  },
  {
   "property": "C45",
   "status": "proved",
   "theorems": [
    "C45_orientation"
   ],
   "note": "Exact arithmetic. Node indices are in range: with an index out of range the constructor only prints a message."
  },
  {
   "property": "C46",
   "status": "proved",
   "theorems": [
    "C46_gradient_affine",
    "C46_derivatives_affine"
   ],
   "note": "Exact arithmetic."
  },
  {
   "property": "C47",
   "status": "proved",
   "theorems": [
    "C47_quadrature"
   ],
   "note": "Five-point and four-point rules (the default build, not ONE_GAUSS_POINT), against iterated Riemann integrals; table entries are the rationals the decimals stand for."
  },
  {
   "property": "C48",
   "status": "proved",
   "theorems": [
    "C48_alpha_eff"
   ],
   "note": "Exact arithmetic; continuity as a Lipschitz bound."
  },
  {
   "property": "C49",
   "status": "proved",
   "theorems": [
    "C49_local_matrix_positive"
   ],
   "note": "Exact arithmetic."
  },
  {
   "property": "C50",
   "status": "proved",
   "theorems": [
    "C50_exchange",
    "C50_uniaxial",
    "C50_cubic_uniform",
    "C50_zeeman",
    "C50_surface_anisotropy"
   ],
   "note": "Exact arithmetic."
  },
  {
   "property": "C51",
   "status": "proved",
   "theorems": [
    "C51_charges_sum",
    "C51_faces_outwards"
   ],
   "note": "Exact arithmetic."
  },
  {
   "property": "C52",
   "status": "proved",
   "theorems": [
    "C52_triangle"
   ],
   "note": "Exact arithmetic."
  },
  {
   "property": "C53",
   "status": "partial",
   "theorems": [
    "C53_energy_partial",
    "C53_magnetic_only",
    "C53_space_field_refuted",
    "C53_warning",
    "C53_evaluation_time",
    "C53_line_time_refuted"
   ],
   "note": "The energies are the sums over exactly the magnetic elements, and the warning is printed exactly when the total exceeds that of the last accepted step. Partial: with a space-varying applied field the result holds only when the magnetic tetrahedra come first in the mesh (C53_space_field_refuted: otherwise the field array is read past its end); the energies written on a line are those of the beginning of its last step (C53_line_time_refuted)."
  },
  {
   "property": "C54",
   "status": "partial",
   "theorems": [
    "C54_below",
    "C54_recenter_partial",
    "C54_no_wall",
    "C54_inside",
    "C54_wall_centred",
    "C54_direction_refuted",
    "C54_nan_refuted",
    "C54_frontier_refuted",
    "C54_ends"
   ],
   "note": "Proved for meshes whose nodes are all magnetic. False of the code otherwise: the nearest node is searched among all the nodes, so that a magnetic node may receive the NaN of a non-magnetic one. The direction of the settings is ignored (always z)."
  },
  {
   "property": "C55",
   "status": "partial",
   "theorems": [
    "C55_last_definition_partial",
    "C55_columns",
    "C55_period",
    "C55_direction",
    "C55_field",
    "C55_magnetization_partial",
    "C55_threads",
    "C55_direction_refuted",
    "C55_magnetization_refuted",
    "C55_basename_refuted",
    "C55_region_refuted"
   ],
   "note": "last definition wins for every scalar setting in the tables, the columns, the period, the directory, the field and the number of threads; false for the recentering direction (reset to Z by a later document that has the section without the key), the initial magnetization (a file wins over later expressions), the deduced base name and regions described twice"
  },
  {
   "property": "C56",
   "status": "proved",
   "theorems": [
    "C56_regions",
    "C56_refused",
    "C56_axes_unit"
   ],
   "note": "generic in the arithmetic and the conversions"
  },
  {
   "property": "C57",
   "status": "proved",
   "theorems": [
    "C57_metadata"
   ],
   "note": "keys unique, last definition, order of first definition"
  },
  {
   "property": "C58",
   "status": "partial",
   "theorems": [
    "C58_header_partial",
    "C58_commented_partial",
    "C58_empty_value_refuted",
    "C58_no_column_refuted",
    "C58_key_refuted"
   ],
   "note": "the header line by line; every line is a comment for all non-empty values; an empty value or an empty list of columns is undefined behaviour, and a newline in a key is not protected"
  },
  {
   "property": "C59",
   "status": "proved",
   "theorems": [
    "C59_replace",
    "C59_terminates",
    "C59_empty_refuted"
   ],
   "note": "left-to-right substitution, for every non-empty pattern; the empty pattern loops for ever"
  },
  {
   "property": "C60",
   "status": "proved",
   "theorems": [
    "C60_base_name"
   ],
   "note": ""
  },
  {
   "property": "C61",
   "status": "partial",
   "theorems": [
    "C61_quoted_partial",
    "C61_literal_partial",
    "C61_backslash_refuted",
    "C61_lines_refuted"
   ],
   "note": "round trip through YAML for strings without backslash and for ordinary multi-line strings; refuted for backslashes, missing or repeated final newlines and leading spaces"
  },
  {
   "property": "C62",
   "status": "proved",
   "theorems": [
    "C62_find_region"
   ],
   "note": ""
  },
  {
   "property": "C63",
   "status": "partial",
   "theorems": [
    "C63_command_line_partial",
    "C63_reading_exists",
    "C63_seed_value",
    "C63_seed_negative",
    "C63_seed_any",
    "C63_empty_refuted"
   ],
   "note": "every argument vector has a reading and the program does what it means, except that an empty argument is taken for --print-defaults"
  },
  {
   "property": "C64",
   "status": "proved",
   "theorems": [
    "C64_pad"
   ],
   "note": "UTF-8 strings without the zero character"
  },
  {
   "property": "C65",
   "status": "proved",
   "theorems": [
    "C65_evaluations",
    "C65_sole_element",
    "C65_errors",
    "C65_repeatable",
    "C65_regions",
    "C65_not_a_number",
    "C65_no_value",
    "C65_space_expressions_refuted"
   ],
   "note": "The interpreter is an arbitrary engine (record over which the theorems quantify); the value stack of its API is modelled. A history of uses answers what the last function returns and leaves it alone on the stack; the program ends with the failure status or the abort of the interpreter exactly when an operation of the engine fails. Findings: a result which is not a number is NaN without message; a function without value aborts instead of the message; a sequence of expressions for Bext.space is accepted and aborts at the first evaluation."
  },
  {
   "property": "C66",
   "status": "proved",
   "theorems": [
    "C66_attribution",
    "C66_node_potential",
    "C66_both_potentials",
    "C66_in_box"
   ],
   "note": "exact arithmetic; the octree is any distribution of the particles among leaves and the fast multipole method any function close to the exact sum of the potentials"
  },
  {
   "property": "C67",
   "status": "proved",
   "theorems": [
    "C67_one_field_per_column",
    "C67_refused",
    "C67_line",
    "C67_region_field_refuted"
   ],
   "note": "the applied field of a column with a region prefix is NaN unless a plain field column is also asked for"
  },
  {
   "property": "C68",
   "status": "partial",
   "theorems": [
    "C68_electrostatic",
    "C68_electrostatic_binary64",
    "C68_spin_partial",
    "C68_second_default_refused",
    "C68_default_once",
    "C68_unchecked_parameters_refuted",
    "C68_both_on_one_surface_refuted"
   ],
   "note": "the electrostatic check is proved for exact and binary64 numbers; the spin check does not look at sigma, l_sf, uP, accepts one surface carrying both values (then nothing is imposed), and refuses a second default entry"
  },
  {
   "property": "C69",
   "status": "proved",
   "theorems": [
    "C69_dirichlet",
    "C69_potential"
   ],
   "note": "generic over the arithmetic for the positions, values as written by the code"
  },
  {
   "property": "C70",
   "status": "proved",
   "theorems": [
    "C70_symmetric",
    "C70_rows_sum_to_zero",
    "C70_power",
    "C70_positive",
    "C70_null_iff_constant"
   ],
   "note": "exact arithmetic"
  },
  {
   "property": "C71",
   "status": "partial",
   "theorems": [
    "C71_same_magnetization_partial",
    "C71_mean_of_the_calls",
    "C71_system_grows",
    "C71_history_refuted"
   ],
   "note": "false as stated: matrix and right-hand side are never set to zero, so the system of the second call is twice the first one (C71_system_grows) and the answer is that of the mean of all magnetizations since the construction (C71_mean_of_the_calls); a call after one with the opposite magnetization answers zero (C71_history_refuted); with one and the same magnetization the answer still solves the right problem (exact arithmetic)"
  },
  {
   "property": "C72",
   "status": "proved",
   "theorems": [
    "C72_laps",
    "C72_seconds"
   ],
   "note": "time points are integers; seconds in exact arithmetic"
  },
  {
   "property": "C73",
   "status": "proved",
   "theorems": [
    "C73_volumes"
   ],
   "note": ""
  },
  {
   "property": "C74",
   "status": "partial",
   "theorems": [
    "C74_field_is_gradient",
    "C74_uniaxial_second_order",
    "C74_cubic_second_order_refuted",
    "C74_cubic_correction",
    "C74_cubic_first_component"
   ],
   "note": "The gradients hold, and the uniaxial second-order term. The cubic second-order term is wrong (tetra.cpp lines 199-203) already for canonical axes."
  },
  {
   "property": "C75",
   "status": "proved",
   "theorems": [
    "C75_demag_energy"
   ],
   "note": "Exact arithmetic."
  },
  {
   "property": "C76",
   "status": "proved",
   "theorems": [
    "C76_equilibrium"
   ],
   "note": "Exact arithmetic; without cubic anisotropy."
  },
  {
   "property": "C77",
   "status": "proved",
   "theorems": [
    "C77_unique_solution",
    "C77_error_bound"
   ],
   "note": "Exact arithmetic."
  },
  {
   "property": "C78",
   "status": "proved",
   "theorems": [
    "C78_neutral",
    "C78_demag_energy"
   ],
   "note": "Over the real numbers."
  },
  {
   "property": "C79",
   "status": "proved",
   "theorems": [
    "C79_trial_statistics",
    "C79_successful_refuted"
   ],
   "note": "All arithmetics, all oracles. The word 'successful' printed by the program covers the refused trials too (C79_successful_refuted)."
  },
  {
   "property": "C80",
   "status": "proved",
   "theorems": [
    "C80_trial_history"
   ],
   "note": "Exact reals."
  },
  {
   "property": "C81",
   "status": "proved",
   "theorems": [
    "C81_directory"
   ],
   "note": ""
  },
  {
   "property": "C82",
   "status": "proved",
   "theorems": [
    "C82_files",
    "C82_period"
   ],
   "note": ""
  },
  {
   "property": "C83",
   "status": "proved",
   "theorems": [
    "C83_user_defaults"
   ],
   "note": ""
  },
  {
   "property": "C84",
   "status": "partial",
   "theorems": [
    "C84_energy_gradient_partial",
    "C84_surface",
    "C84_surface_factor_refuted",
    "C84_transfer_and_drift",
    "C84_field_along_m",
    "C84_drift_step_refuted",
    "C84_rows"
   ],
   "note": "volume terms: holds with K3 = 0, or at rest with interpolated magnetization of length one (the cubic second order term is wrong, C74). The surface term is divided by dMs instead of mu0 dMs, so it is too small by the factor mu0 (refuted); the drift and spin transfer are predicted with theta dt gamma0 instead of theta dt (refuted)"
  },
  {
   "property": "C85",
   "status": "proved",
   "theorems": [
    "C85_thiele"
   ],
   "note": "exact arithmetic"
  },
  {
   "property": "C86",
   "status": "proved",
   "theorems": [
    "C86_vertex_potential",
    "C86_integral_unique"
   ],
   "note": "exact arithmetic, Riemann integral of the standard library"
  },
  {
   "property": "C87",
   "status": "proved",
   "theorems": [
    "C87_potential",
    "C87_solved",
    "C87_unique",
    "C87_infinite_potential_refuted"
   ],
   "note": "exact arithmetic, from the boundary data to the returned potential; finding: a second surface with an infinite potential passes the check and is imposed"
  },
  {
   "property": "C88",
   "status": "proved",
   "theorems": [
    "C88_accumulation",
    "C88_start",
    "C88_not_started",
    "C88_failure",
    "C88_unique",
    "C88_error",
    "C88_elements",
    "C88_start_fails"
   ],
   "note": "exact arithmetic, from the surface data to the stored vectors, for a new object; C88_start: the whole constructor, with the potential computed by the electrostatic solver"
  },
  {
   "property": "C89",
   "status": "proved",
   "theorems": [
    "C89_gradients_converge"
   ],
   "note": "exact arithmetic"
  },
  {
   "property": "C90",
   "status": "proved",
   "theorems": [
    "C90_functions",
    "C90_inverses",
    "C90_all_values"
   ],
   "note": "Formulas of the library over the reals; the rounding of the interpreter's arithmetic is not modelled."
  },
  {
   "property": "C91",
   "status": "proved",
   "theorems": [
    "C91_contributed",
    "C91_mesh",
    "C91_refused",
    "C91_final_mesh",
    "C91_two_groups_refuted",
    "C91_missing_node_refuted",
    "C91_empty_volume_refuted"
   ],
   "note": "gmsh is the record of the answers of its API. The exact theorem is for files whose tags are 1..n and whose entities hold elements of their dimension with existing nodes. Findings outside: a volume in two groups which are both regions is in the mesh twice (also covered by the exact theorem); an element with a node tag which is not in the file is kept with an index out of bounds, after a message; a volume without elements in a region group reads the first vector of an empty answer."
  },
  {
   "property": "C92",
   "status": "partial",
   "theorems": [
    "C92_no_time_partial",
    "C92_line_number_partial",
    "C92_larger_mesh_refuted",
    "C92_smaller_mesh_refuted"
   ],
   "note": "A file without time is refused, and so is one with a wrong line number, wherever it is and whatever follows. The property fails for files of another number of nodes, for all of them: if the file has more nodes, its first lines are taken without a message; if it has fewer, indices and components which were never set are read (undefined behaviour)."
  },
  {
   "property": "C93",
   "status": "partial",
   "theorems": [
    "C93_printed_settings_partial",
    "C93_current_density_refuted",
    "C93_user_defaults_refuted",
    "C93_digits_refuted",
    "C93_no_polarization_refuted"
   ],
   "note": "The printed document is the tree that YAML 1.2 gives to what toYaml prints; the layout is not modelled. Proved when the numbers and strings read back (6 significant digits, norms exactly 1), no surface has a current density and one file is read over the built-in defaults. False otherwise: the current density is printed under J and read under jn, so it is lost; the default Ms 795774.7 is printed 795775; a function of the user defaults is printed although expressions of the settings file are used; with the spin accumulation a surface without polarization prints nan, which is refused."
  },
  {
   "property": "C94",
   "status": "proved",
   "theorems": [
    "C94_no_undefined_setting",
    "C94_default_values",
    "C94_fresh"
   ],
   "note": "default-settings.yml is the tree it is loaded to; the members before the constructor reads it are any values where settings.h gives no initializer and no default constructor."
  },
  {
   "property": "C95",
   "status": "partial",
   "theorems": [
    "C95_energy_balance_partial",
    "C95_energy_decreases",
    "C95_full_step_partial",
    "C95_two_materials_refuted",
    "C98_energy_partial",
    "C95_element"
   ],
   "note": "Exact arithmetic. Balance: the exact change of the energy along the unnormalized step, all regions having the same Ms, without cubic anisotropy. Decrease without anisotropy for any approximate solution (bound by its residual). Full step with the renormalization: mesh without obtuse angles, no anisotropy, exact solution, gamma0 dt |H| <= 32/55 alpha. The potential is the one the step uses, phi + theta dt phiv, not the one of the new magnetization. False when two regions have different Ms: the equations of an element are divided by its Ms before they are added, and a magnetization of least energy is moved. Missing: anisotropies in the full step, obtuse meshes, surface anisotropy."
  },
  {
   "property": "C96",
   "status": "partial",
   "theorems": [
    "C96_run_partial",
    "C96_basis",
    "C96_kick_partial",
    "C96_normalize_partial",
    "C96_step_partial",
    "C96_history_partial",
    "C96_run_history",
    "C96_same_step",
    "C96_same_basis",
    "C96_overflow_refuted"
   ],
   "note": "binary64, both orders of summation. C96_run_partial: any number of steps, with the bases computed by setBasis in binary64 from the current magnetization and arbitrary solutions of the linear system; asked of every step: velocities and time step finite, time step at most 1 s, displacement at most 2^39 rad, cosine and sine within 2^-52 of those of some angle. C96_basis: the rounded basis and the magnetization are orthonormal up to 2^-43. C96_history_partial takes any basis, and asks that the displacement does not point against the magnetization by more than 1/4. False without a bound: a finite displacement of 2^520 overflows in the squared norm and the magnetization becomes the zero vector. The same texts with exact numbers are those of C16-C19 (C96_same_step, C96_same_basis). Missing, as false: displacements without bound. PARANOID_ORTHONORMALIZATION is false, as in config.h.in."
  },
  {
   "property": "C97",
   "status": "partial",
   "theorems": [
    "C97_step_turns_partial",
    "C97_bases_irrelevant",
    "C97_step_exists",
    "C97_energies",
    "C97_potentials",
    "C97_cubic_refuted",
    "C97_elements"
   ],
   "note": "exact arithmetic, exact solution of the linear system. False with cubic anisotropy: the second-order term of calc_aniso_cub multiplies components along different frames, and a sample with K3 turned by a quarter turn about its magnetization moves differently (C97_cubic_refuted). Energies, charges, potentials and the independence of the bases hold for all materials; the potentials up to the accuracy of the fast multipole method. Without moving frame."
  },
  {
   "property": "C98",
   "status": "proved",
   "theorems": [
    "C98_weight",
    "C98_correction_vanishes"
   ],
   "note": "exact arithmetic; both readings of abs(log(t_tilde)). C98_energy_partial (with C95) instantiates the decrease of the energy with these weights."
  },
  {
   "property": "C99",
   "status": "proved",
   "theorems": [
    "C99_torque",
    "C99_torque_uniform",
    "C99_torque_bound",
    "C99_as_external",
    "C99_step_as_external",
    "C99_no_accumulation",
    "C99_turns"
   ],
   "note": "exact arithmetic. C99_as_external gives the one term by which the effective field differs from an external field when the nodes move."
  }
 ]
}
