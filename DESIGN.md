# A Rocq (Coq 8.16.1) model of FeeLLGood

The code modelled is `/repo/src` (C++) at the pinned commit. The list of properties is
`properties.jsonl` (C01...), the claim table is `MANIFEST.json`, the log of seeded bugs is
`seeded/LOG.jsonl`. All Coq sources are in `rocq/theories`.

## 1. Organisation of the development

Every area of the code has up to four files:

* `XxxModel.v` - Gallina definitions only, one per C++ function, each with a comment citing file and
  lines, and the simplifications made;
* `XxxSpec.v` (or a section at the top of `XxxProps.v`) - the vocabulary in which the properties are
  stated, independent of the model's helpers;
* `XxxProof.v` - lemmas;
* `XxxProps.v` - property theorems, closed by `exact lemma`, `Print Assumptions` after each, and an
  `Example` showing that a concrete non-trivial case meets the hypotheses.

### Numbers

Numeric code is polymorphic over a record of operations `arith` (`Arith.v`): carrier, `+ - * /`,
comparisons, `fabs`, `sqrt`, `isnan`, rational literals. Three instances are used:

* **any** `arith`: control-flow theorems (termination of the solvers, what is accepted or rejected,
  counters, roll-back) hold for every carrier and every interpretation of the operations, hence for
  IEEE-754 doubles with all their rounding, infinities and NaNs;
* `XA`: exact real numbers extended with +inf, -inf and NaN, with the IEEE rules for them. This is
  "exact arithmetic" in the property texts. Simplification: zero is unsigned, so `x/0` is +-inf
  according to the sign of x only;
* `B64`: IEEE-754 binary64 round-to-nearest-even, from Flocq (`binary_float 53 1024`). Executable:
  the examples and the counterexamples run in it by `vm_compute`. Used for the theorems on rounding
  (output times, no overshoot).

Purely geometric or algebraic code (element integrals, quadrature, node basis, statistics) is
modelled over Coq's `R`; divisions by zero are excluded by hypotheses that the constructors in the
code enforce or that are stated in the property.

### State, errors, undefined behaviour

Mutating functions return the new state. `exit(1)`/`SYSTEM_ERROR` is the constructor `Exit` of an
outcome type, C++ undefined behaviour (index out of bounds, `operator[]` of a sparse row outside its
shape, assertions being compiled out) is the distinct outcome `UB`. Loops are structural recursion or
explicit fuel; running out of fuel is a distinct outcome and is excluded by theorems.

### External code

User JavaScript, FMM library, kd-tree, gmsh, YAML parsing, file system, the random generator and the
clock are function arguments (oracles) of the model: theorems quantify over all their behaviours.

## 2. Plan per property

| id | what is modelled | how it is proved |
|----|------------------|------------------|
| C01, C02 | `TimeStepper`, `timing`, the two nested loops of `Fem::time_integration` as a transition system driven by an adversary that answers each trial (error, vmax) | invariant `t <= target` over trials; in binary64 via Flocq: `step <= fl(T-t)`, either equal (then t:=T) or `step <= pred(fl(T-t)) <= T-t`, monotonicity of rounding |
| C03, C04, C05 | same, any arithmetic | induction over the trial history |
| C06 | same, exact arithmetic / binary64 | invariant |
| C07 | same, exact arithmetic and binary64 | well-founded measure: remaining time / DTMIN and log of soft limit; in binary64 under a bound of min(dt) relative to the times (TimeB64.v), refuted without it (time can stall) |
| C08 | same | induction |
| C09-C11 | `TimeStepper` alone | case analysis, exact arithmetic; sliver refuted for short strides |
| C12 | `step_count` | real arithmetic on `round` |
| C13 | loop with a signal flag read at the loop head | induction; "last accepted magnetization" refuted (NEXT holds a rejected trial) |
| C14 | `Fem::saver` decision | arithmetic |
| C15, C16 | `LogStats` over R | invariant n, mean, sum of squared deviations |
| C17-C20 | `Nodes::Node` over R | vector algebra; histories by induction |
| C21-C24 | `SparseMatrix` as rows of (sorted indices, values) | refinement to a map; interleaving semantics for `add` |
| C25-C29 | `iteration`, `bicg`, `bicg_dir` (2), `cg`, `cg_dir`, polymorphic arithmetic | loop invariants; termination by `nit`; residual invariant in `XA` with absorption of non-finite values |
| C30-C33 | `solver<DIM>::build_shape/buildMat/buildVect`, `LinAlgebra::solve` | induction over elements |
| C34-C37 | `mesh` constructor pieces | list permutations, sortedness |
| C38-C40 | `controlTriangles` and helpers | induction over sorted groups |
| C41 | `.sol` writer and reader on token lists | induction over nodes; refuted cases with NaN / spin columns |
| C42-C44 | `avg`, `max_angle`, `init_distrib` | sums |
| C45-C53 | element geometry, quadrature, energies over R | `field`, `nra`, `lra` |
| C54 | `recenter` with nearest-neighbour oracle | induction over nodes |
| C55-C62 | settings reading on an abstract YAML tree; string helpers | induction on strings and documents |
| C63, C64 | `parseOptions`, `char_length`, `pad` | induction over arguments / bytes |
| C65 | Duktape value stack protocol | stack invariant |
| C66 | `fmm` numbering | permutation invariance |
| C67 | column loop of `saver` | induction |
| C68-C71 | transport solvers' checks and assembly | induction; C71 refuted (system accumulates) |
| C72 | `chronometer` | telescoping sum |
| C73 | volumes of regions, `mesh` constructor | sums over lists |
| C74 | `calc_aniso_uniax/cub` and their second-order terms | derivatives over R; cubic term refuted |
| C75, C78 | charges and demagnetizing energy of tetrahedra and triangles | discrete divergence theorem on paired faces |
| C76 | `Tet::integrales` on a uniform state | evaluation of the element vectors |
| C77 | assembled system of a time step | coercivity, linear algebra over lists of vectors (`LinAlg.v`) |
| C79, C80 | `time_integration` statistics and start of each step | induction over the trial history |
| C81, C83 | directory and defaults file names | string induction |
| C82 | period of the `.sol` files | arithmetic on iterations |
| C84 | weak form of a time step against the derivative of the energy | bilinear forms over R; refuted factors |
| C85 | `mesh::thiele` | sums |
| C86 | `Tri::potential` | integral of 1/r over a triangle as an improper Riemann integral (Coquelicot), uniqueness of the value |
| C87 | `electrostatSolver` from data to potential | weak form, coercivity, CG with Dirichlet data |
| C88 | `spinAcc` from data to stored vectors | same, non-symmetric |
| C89 | `cg` in exact arithmetic | A-orthogonality invariant, at most n passes |
| C90 | the JavaScript library | real analysis: mean value theorem, bounds of exp and ln |
| C91 | the mesh reader over the answers of the gmsh API | induction over entities, groups and elements; composed with C34 and C45 |
| C92 | the reader of .sol files on files of other meshes | induction over the node lines, any prefix of good lines; partial: other sizes are not refused |
| C93 | `toYaml` as a document, loaded by the rules of YAML | section by section: what is printed reads back; partial: current density, digits, user defaults, missing polarization |
| C94 | the constructor over the tree of default-settings.yml | every key present, so the result is a function of the document alone |
| C95 | Tet::integrales (matrix and right-hand side), the assembled system, Node::make_evol | the right-hand side tested with the solution is minus the derivative of the energy, the matrix tested with it is damping + 2 theta prefactor times the exchange energy of the increment; renormalization contracts the edges |
| C96 | Node::setBasis, Node::make_evol and Eigen's normalize over any arithmetic (RoundModel.v), instantiated by binary64 and by exact numbers | rounding errors of every product, sum, square root and division (Flocq), absolute bounds through the Gram-Schmidt step, the cross product and the rotation (BasisProps.v); induction over the steps; witness of the overflow |
| C97 | one time step as a linear system (ElemModel, AsmModel, NodeModel), `energy` (EnergyModel) and `demag` (DemagModel) of a displaced sample | the system is two projections of a vector equation at each node; that equation turns with the sample; uniqueness of the solution; a tetrahedron with K3 as counterexample |
| C98 | THETA, TAUR and the prefactor of timing::set_dt (ThetaModel.v) | bounds of t |ln t| over ]0, 1/100]; both meanings of the unqualified abs |
| C99 | calc_Hst and spinAcc::prepareExtraField (StModel.v) against the matrix of the diffusion problem | the Gauss rule integrates products of two shape functions exactly; the difference with the lumped matrix is a sum over the edges |
| C100 | Settings::read(filename), main from the command line to the settings (StartModel.v) | case analysis over what the loader gives for each file; missing file as counterexample for --verify |
| C101 | the threads of ConcModel.v and the reductions of StdModel.v, with doubles (EXEC_POL) | serializability of C22, then rounding of sums in any order and grouping (Flocq's relative error of an addition, induction over the grouping); a schedule as witness against equality |
| C102, C103 | the loop of TimeModel.v with the arguments of the last call of Fem::energy and the contents of each line; recenter on the two time levels (RecenterModel.v) | invariant over the history of trials: between two output times either the target is not reached or the state is that of an accepted step |
| C104, C105, C106 | FileModel.v: the names of the files, the start of a run (constructor of Fem), the file of the potential; a file system is a map from names to contents | names read from their end (decimal digits, then the letters of the suffix) are injective; invariant over a run: the snapshots of the history have distinct numbers below the next line's; C104 composes C41, C14 and C102 |
| C107 | the step data of C95 (Tet::integrales), the assembled system, and the passes of the time loop on the nodes (NodeModel) | the velocity of one moment satisfies the equations of every tetrahedron, hence the assembled ones, and the solution is unique (C77); induction over the passes |
| C108 | the run of C107 and a solution of the differential equation (derivable_pt_lim) | consistency of one step (C48 bounds the change of the damping), Lipschitz bound of the right-hand side on the sphere, mean value theorem, discrete Gronwall induction |
| C109 | the same run, theta = 1/2 | Taylor expansion of the motion to order two (explicit acceleration, differentiated along the motion), expansion of the effective damping and of the normalization, the lagged velocity in the field is within O(h); discrete Gronwall induction |
| C110 | the same run, theta in [0, 1], symmetric demagnetizing tensor | the computed velocity is the one of the equation within O(dt) relatively to it, which is an invariant; change of a quadratic energy; sum over the run |
| C111 | Fem::energy on a whole mesh with the triangles added by the program, and the run of C110 | values of the element energies for constant nodal values; sum over the mesh by C78; monotonicity by C110 |
| C112 | Tri::integrales, Tri::anisotropyEnergy, Tri::demagEnergy, Tri::charges on the triangles that controlTriangles keeps, and the list magTri | an odd permutation of the nodes changes the sign of the normal and of the jump; the torque has only the jump, so its sign is wrong for inward triangles: witness on one tetrahedron |
| C113 | LinAlgebra::solve with the concurrent assembly and bicg_dir, in any arithmetic | a non-finite coefficient makes a component of the residual non-finite; this is an invariant of the loop; every exit of the loop with it is a refusal |
| C114 | the system of a time step and Fem::energy, the demagnetizing potential, for two meshes of the same sample | the equations of a node are sums over the elements; a permutation of the corners permutes the Gauss points and the gradients of the shape functions; uniqueness of the solution (C77); for the potential, the formula of a triangle at its vertex is an integral (C86), and the integral does not depend on the order of the two other vertices |
| C115 | create_dir_if_needed as two system calls on a file system with directories, files and permissions; several programs interleaved | case analysis of the calls; invariants over the schedule; two witnesses |

## 3. Trusted base

* Coq 8.16.1's kernel (including its `vm_compute` machine), the standard library, Flocq (definition of binary64 and
  of rounding) and Coquelicot (definition of integrals). Neither Flocq nor Coquelicot adds an axiom here.
* Axioms: none of our own. Those listed by `Print Assumptions` for each claimed theorem are in section 5; they are
  four axioms of the standard library.
* The reading of the C++ code: nothing was compiled or run. Comments in the model cite the lines.
* The behaviour of the libraries, as written in the model: Eigen's small vectors, libstdc++ streams and `std::string`,
  `std::sort` / `std::unique` / `std::set`, yaml-cpp's conversions (oracles with the stated totality), the value stack
  of Duktape's API, glibc's `strtol`. Each is described in the comment of the definition that stands for it.

## 4. What is modelled and what is not

| file of /repo/src | model | not modelled |
|---|---|---|
| `time_integration.{h,cpp}`, part of `fem.h` | `TimeModel.v` (loop, stepper, exit paths), `CountProps.v` | text of messages, wall-clock texts, `show_stats` layout |
| `log-stats.h` | `StatsModel.v` over R and any arithmetic | - |
| `node.h` | `NodeModel.v` | - |
| `algebra/*.h` | `SparseModel.v`, `ConcModel.v` (threads and mutexes), `IterModel.v` | Eigen's evaluation order inside a dot product |
| `solver.{h,cpp}`, `linear_algebra.{h,cpp}` | `AsmModel.v` | `base_projection`'s random angle is an argument |
| `mesh.{h,cpp}`, `meshUtils.h` | `MeshModel.v`, `AvgModel.v`, `CtrlModel.v` | printed messages; parallel execution policies are the sequential loop (the bodies touch distinct data) |
| `read.cpp`, `meshUtils.h` | `SolModel.v` (`readSol`), `ReadModel.v` (`readMesh`) | gmsh itself: its answers are a record; conversion of tags from size_t to int |
| `element.h`, `tetra.{h,cpp}`, `triangle.{h,cpp}` | `ElemModel.v`, `DemagModel.v` (`Tri::potential`), `NeelModel.v` (`Tri::integrales` in any arithmetic) | - |
| `energy.cpp` | `EnergyModel.v` | - |
| `fmm_demag.h` | `DemagModel.v` | the FMM library itself: it is the oracle `exec` |
| `recentering.cpp` | `RecenterModel.v` | the kd-tree: an oracle giving the nearest node |
| `settings.{h,cpp}`, `default-settings.yml` | `SettingsModel.v`, `TextModel.v`, `PrintModel.v` | yaml-cpp's parser (documents are trees); the layout of `toYaml`; `dumpTemplate` |
| `save.cpp` | `ColumnModel.v`, `SolModel.v`, `FileModel.v` | `std::ofstream` failures |
| `tags.{h,cpp}`, `chronometer.{h,cpp}`, `main.cpp` | `TextModel.v`, `MainModel.v`, `StartModel.v` | signal delivery is a flag that may be set at any step; `prompt_for_user` |
| `electrostatSolver.*`, `spinAccumulationSolver.*` | `TransportModel.v`, `StModel.v`, `FileModel.v` (file of the potential) | messages |
| `expression_parser.*` | `ParserModel.v`, `JsLibProps.v` | Duktape itself: an arbitrary engine |

Exact arithmetic is used for geometry, energies, weak forms, transport coefficients and the accuracy of solvers;
control flow, termination, roll-back, text and counting are proved for any arithmetic or for binary64.

## 5. What `Print Assumptions` lists for each claimed theorem

The four axioms are `ClassicalDedekindReals.sig_not_dec`, `ClassicalDedekindReals.sig_forall_dec`,
`FunctionalExtensionality.functional_extensionality_dep` (the standard library's reals) and `Classical_Prop.classic`.

**Closed under the global context** (102):
C03_dt_at_least_min, C04_accepted_within_dumax, C05_rejected_trial_rolled_back, C08_exit_status, C100_list_refuted,
C100_no_settings, C100_started, C100_unknown_section, C100_verify_partial, C100_verify_refuted, C101_sequential,
C102_energies_partial, C102_first_line, C102_line_partial, C103_potentials_partial, C104_bad_file,
C105_message_refuted, C105_solved, C106_contents, C106_directory_refuted, C106_earlier_run_refuted,
C106_names_partial, C106_two_runs, C112_without_anisotropy, C113_accepted, C115_alone, C115_concurrent_partial,
C115_one_starts, C115_parents_refuted, C115_together_refuted, C13_signals_partial, C14_snapshots, C21_sparse_map,
C22_concurrent_add_serializable, C22_mutual_exclusion, C22_progress, C24_diag_precond, C25_counter,
C25_monitor_verdict, C26_solvers_stop, C28_dirichlet_generic, C33_nonmagnetic, C36_edges, C41_failed_read,
C41_nan_refuted, C41_white_space, C53_evaluation_time, C54_direction_refuted, C55_columns, C55_direction, C55_field,
C55_last_definition_partial, C55_magnetization_partial, C55_period, C55_threads, C56_refused, C56_regions,
C57_metadata, C58_commented_partial, C58_empty_value_refuted, C58_header_partial, C58_key_refuted,
C58_no_column_refuted, C59_empty_refuted, C59_replace, C59_terminates, C60_base_name, C61_backslash_refuted,
C61_lines_refuted, C61_literal_partial, C61_quoted_partial, C62_find_region, C63_command_line_partial,
C63_empty_refuted, C63_reading_exists, C63_seed_any, C63_seed_negative, C63_seed_value, C64_pad, C65_errors,
C65_evaluations, C65_no_value, C65_not_a_number, C65_regions, C65_repeatable, C65_sole_element, C67_line,
C67_one_field_per_column, C67_refused, C67_region_field_refuted, C72_laps, C79_trial_statistics, C81_directory,
C82_files, C82_period, C83_user_defaults, C91_contributed, C92_no_time_partial, C93_printed_settings_partial,
C94_default_values, C94_fresh, C94_no_undefined_setting.

**sig_forall_dec** (4):
C34_renumbering, C38_accepted, C39_regions, C39_triangles.

**functional_extensionality_dep, sig_forall_dec** (64):
C102_recenter_view, C103_stale_potentials, C107_equation, C107_sense, C112_interface_refuted, C112_outer_jump,
C113_refused, C114_fields, C30_positions_exist, C30_stored_positions, C32_solve_outcome, C33_magnetic_diagonal,
C35_bounds, C35_longest_axis_partial, C35_longest_axis_refuted, C35_sorted, C37_marking, C40_jump, C45_orientation,
C46_derivatives_affine, C46_gradient_affine, C48_alpha_eff, C49_local_matrix_positive, C50_cubic_uniform,
C50_exchange, C50_uniaxial, C51_faces_outwards, C53_line_time_refuted, C53_magnetic_only, C53_warning, C54_below,
C54_ends, C54_frontier_refuted, C54_inside, C54_nan_refuted, C54_no_wall, C54_recenter_partial, C54_wall_centred,
C66_in_box, C70_null_iff_constant, C70_positive, C70_power, C70_rows_sum_to_zero, C70_symmetric, C73_volumes,
C74_cubic_correction, C74_cubic_first_component, C74_cubic_second_order_refuted, C74_field_is_gradient,
C74_uniaxial_second_order, C76_equilibrium, C84_drift_step_refuted, C84_energy_gradient_partial, C84_field_along_m,
C84_transfer_and_drift, C85_thiele, C91_empty_volume_refuted, C91_final_mesh, C91_mesh, C91_missing_node_refuted,
C91_refused, C91_two_groups_refuted, C95_element, C99_as_external.

**functional_extensionality_dep, sig_forall_dec, sig_not_dec** (111):
C01_output_times_exact, C02_no_overshoot, C03_dt_at_most_max, C06_time_forward, C07_time_loop_ends_partial,
C09_retry_smaller, C102_energy_time_refuted, C102_max_dm, C107_macrospin, C107_run, C10_growth_bounded,
C110_dissipation, C110_relaxation, C111_energies, C111_run, C111_total, C112_added_triangles_refuted, C112_energies,
C112_exact, C112_inward_torque, C112_suppressed_refuted, C112_surface_torque_partial, C114_energies, C114_step,
C11_no_sliver, C12_last_line_past_final_time, C12_line_count, C17_basis_orthonormal, C18_unit_sphere_invariant,
C19_velocity_tangent, C20_angle_irrelevant, C21_outside_shape_refuted, C22_no_lost_update, C23_mult,
C24_diag_precond_exact, C25_monitor_exact, C27_converged_residual, C29_good_guess_untouched, C30_assembled, C31_rhs,
C31_vector, C32_solution, C40_order_of_nodes, C42_average, C44_initial_magnetization, C44_zero_vector_refuted,
C50_surface_anisotropy, C50_zeeman, C51_charges_sum, C52_triangle, C53_energy_partial, C53_space_field_refuted,
C55_basename_refuted, C55_direction_refuted, C55_magnetization_refuted, C55_region_refuted, C56_axes_unit,
C65_space_expressions_refuted, C68_both_on_one_surface_refuted, C68_default_once, C68_electrostatic,
C68_second_default_refused, C68_spin_partial, C68_unchecked_parameters_refuted, C69_dirichlet, C69_potential,
C71_history_refuted, C71_mean_of_the_calls, C71_same_magnetization_partial, C71_system_grows, C72_seconds,
C75_demag_energy, C77_error_bound, C77_unique_solution, C78_demag_energy, C78_neutral, C80_trial_history, C84_rows,
C84_surface, C84_surface_factor_refuted, C87_infinite_potential_refuted, C87_potential, C87_solved, C87_unique,
C88_accumulation, C88_elements, C88_error, C88_failure, C88_not_started, C88_start, C88_start_fails, C88_unique,
C89_gradients_converge, C95_energy_balance_partial, C95_energy_decreases, C95_full_step_partial,
C95_two_materials_refuted, C96_same_basis, C96_same_step, C97_bases_irrelevant, C97_cubic_refuted, C97_elements,
C97_energies, C97_step_exists, C97_step_turns_partial, C99_no_accumulation, C99_step_as_external, C99_torque,
C99_torque_bound, C99_torque_uniform, C99_turns.

**classic, functional_extensionality_dep, sig_forall_dec, sig_not_dec** (70):
C01_output_times_exact_b64, C02_no_overshoot_b64, C03_dt_at_most_max_b64, C06_time_never_decreases_b64,
C07_time_loop_ends_b64_partial, C07_time_loop_ends_refuted, C09_retry_smaller_b64, C101_assembly_partial,
C101_minimum, C101_parallel_refuted, C101_reduce_partial, C101_two_runs_partial, C103_recenter_refuted, C104_repeat,
C104_restart_partial, C104_time_refuted, C105_potential_file, C108_convergence, C109_second_order, C113_double,
C114_computed_potential, C114_potential, C114_vertex_order, C11_short_stride_aborts_refuted,
C13_saved_is_accepted_refuted, C15_statistics, C16_order_irrelevant, C18_step_on_sphere, C25_monitor_nan,
C27_double_overflow_refuted, C28_dirichlet_values, C32_absolute_check_refuted, C41_error, C41_exact,
C41_metadata_refuted, C41_restore_partial, C41_same_file, C41_spin_refuted, C43_max_angle, C43_nonmagnetic_refuted,
C47_quadrature, C66_attribution, C66_both_potentials, C66_node_potential, C68_electrostatic_binary64,
C79_successful_refuted, C86_integral_unique, C86_vertex_potential, C90_all_values, C90_functions, C90_inverses,
C92_larger_mesh_refuted, C92_line_number_partial, C92_smaller_mesh_refuted, C93_current_density_refuted,
C93_digits_refuted, C93_no_polarization_refuted, C93_user_defaults_refuted, C96_basis, C96_history_partial,
C96_kick_partial, C96_normalize_partial, C96_overflow_refuted, C96_run_history, C96_run_partial, C96_step_partial,
C97_potentials, C98_correction_vanishes, C98_energy_partial, C98_weight.

## 6. Findings: where the code does not do what its users may expect

Each is proved by the theorem named (a witness in the model), unless marked "read".

Time loop: a stride shorter than 3 min(dt) aborts although a step was possible (`C11_short_stride_aborts_refuted`); the
number of lines is rounded so the last time may pass the final time (`C12_last_line_past_final_time`); in binary64 the
time can stall for ever when min(dt) is below half an ulp (`C07_time_loop_ends_refuted`); a signal after a refused
trial saves the refused magnetization (`C13_saved_is_accepted_refuted`); the statistics of "successful" steps include
refused ones (`C79_successful_refuted`); energies of a line are those of the beginning of its last step
(`C53_line_time_refuted`).

Algebra: writing outside the shape of a `SparseMatrix` overwrites another coefficient (`C21_outside_shape_refuted`);
overflow makes `inf <= inf` count as converged (`C27_double_overflow_refuted`); `LinAlgebra::solve` compares an
absolute residual with a relative tolerance (`C32_absolute_check_refuted`).

Mesh and state: `maxNodes` starts from `__DBL_MIN__` (`C35_longest_axis_refuted`); a zero vector of the user is not
made unit (`C44_zero_vector_refuted`); a space-varying field is indexed by the wrong number
(`C53_space_field_refuted`); recentering ignores its direction and copies NaN or reads an undefined frontier
(`C54_*_refuted`).

Mesh file: a volume in two region groups is in the mesh twice, an element with a node that does not exist is kept, a
region's volume without elements is undefined behaviour (`C91_*_refuted`). A `.sol` file of a larger mesh is accepted, one of a smaller mesh reads variables which were never set
(`C92_*_refuted`).

Physics: the second-order cubic anisotropy term is wrong (`C74_cubic_second_order_refuted`) and makes a step depend on the orientation of the sample (`C97_cubic_refuted`); surface anisotropy is
divided by dMs instead of mu0 dMs (`C84_surface_factor_refuted`); drift and spin transfer use theta dt gamma0 where
theta dt is meant (`C84_drift_step_refuted`); the second-order term of the spin transfer field is added to the right-hand side
although the effective damping already contains it, which is not done for any other field (`C99_as_external`). The equations of an element are divided by its Ms before they are added at
the nodes: between regions of different Ms a magnetization of least energy is moved (`C95_two_materials_refuted`).

Text: replacing an empty pattern loops for ever (`C59_empty_refuted`); empty metadata values and an empty list of columns
are undefined behaviour, a newline in a key breaks the header (`C58_*_refuted`); backslashes, final newlines and leading
spaces are changed by the printed settings (`C61_*_refuted`); a `.sol` file with a metadata named time, NaN values or
spin columns cannot be restored (`C41_*_refuted`); `region:Hx` prints NaN (`C67_region_field_refuted`).

Settings: the recentering direction is reset, a restore file wins over later expressions, a deduced base name is kept,
a region described twice keeps the first (`C55_*_refuted`); an empty command line argument is `--print-defaults`
(`C63_empty_refuted`); a sequence for `Bext.space` is accepted and aborts at the first evaluation
(`C65_space_expressions_refuted`); --verify accepts a missing or empty file (`C100_verify_refuted`), and a settings file that is
a list is taken for an empty map (`C100_list_refuted`).

The printed settings lose the current densities (printed `J`, read `jn`), round to 6 digits, show a function of the user
defaults which is not used, and are refused when a polarization is missing (`C93_*_refuted`).

Transport: unchecked sigma, l_sf, uP, one surface with jn and s imposes nothing, a second `__default__` entry is refused
(`C68_*_refuted`, `C68_second_default_refused`); an infinite potential passes the check and is imposed
(`C87_infinite_potential_refuted`); the spin system is never cleared between calls (`C71_history_refuted`).

Parallel runs are not reproducible bit for bit, even with `--seed` (`C101_parallel_refuted`); `max_angle` depends on the scheduling as
soon as there is a non-magnetic region (`C43_nonmagnetic_refuted`).

* After a recentering the next time step uses the potentials of the configuration before the shift (C103), and the line written meanwhile shows the
  averages before the shift.

* `electrostatSolver::save` returns true on failure: the message "file ... written" comes exactly when it was not (`C105_message_refuted`); the file of
  the potential is written in the current directory, not in the output directory (`C106_directory_refuted`).
* A restarted run empties the .evol file of the run it continues unless its name is changed (`C106_earlier_run_refuted`), and its time has 7 digits
  (`C104_time_refuted`).
- The torque of a surface anisotropy is divided by the signed jump of Ms over the triangle: for a triangle whose nodes are listed so that its normal points inwards the torque drives the magnetization up the surface anisotropy energy (`C112_inward_torque`). The triangles the program adds to close the surface are of both kinds (`C112_added_triangles_refuted`).
- `suppress_charges` also drops the surface anisotropy of the surface (`C112_suppressed_refuted`).
- A surface anisotropy on a surface between two materials of the same Ms, or inside one material: the torque is divided by a jump that is zero, its components are NaN, and every time step is refused (`C112_interface_refuted`).
- `create_dir_if_needed` does not create the directories above the output directory (`C115_parents_refuted`), and of two programs started together with the same new directory one can exit because `mkdir` finds it there (`C115_together_refuted`).

Read, not proved: `base_projection` uses `M_2_PI` (2/pi) where 2*pi seems meant; `--seed` as the last argument leaves the seed uninitialised (main.cpp lines 138 and 209); the time per step printed at the end is divided by the number of steps, which can be zero (main.cpp line 283); after the first call, a failure of the spin accumulation solver is only printed in verbose mode and the run goes on with a zero spin accumulation (fem.h lines 203-224).
