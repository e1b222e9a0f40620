{
"C01_output_times_exact": [
"TimeProps",
[
"ClassicalDedekindReals.sig_not_dec",
"ClassicalDedekindReals.sig_forall_dec",
"FunctionalExtensionality.functional_extensionality_dep"
]
],
"C01_output_times_exact_b64": [
"TimeProps",
[
"ClassicalDedekindReals.sig_not_dec",
"ClassicalDedekindReals.sig_forall_dec",
"FunctionalExtensionality.functional_extensionality_dep",
"Classical_Prop.classic"
]
],
"C02_no_overshoot": [
"TimeProps",
[
"ClassicalDedekindReals.sig_not_dec",
"ClassicalDedekindReals.sig_forall_dec",
"FunctionalExtensionality.functional_extensionality_dep"
]
],
"C02_no_overshoot_b64": [
"TimeProps",
[
"ClassicalDedekindReals.sig_not_dec",
"ClassicalDedekindReals.sig_forall_dec",
"FunctionalExtensionality.functional_extensionality_dep",
"Classical_Prop.classic"
]
],
"C03_dt_at_least_min": [
"TimeProps",
[]
],
"C03_dt_at_most_max": [
"TimeProps",
[
"ClassicalDedekindReals.sig_not_dec",
"ClassicalDedekindReals.sig_forall_dec",
"FunctionalExtensionality.functional_extensionality_dep"
]
],
"C03_dt_at_most_max_b64": [
"TimeProps",
[
"ClassicalDedekindReals.sig_not_dec",
"ClassicalDedekindReals.sig_forall_dec",
"FunctionalExtensionality.functional_extensionality_dep",
"Classical_Prop.classic"
]
],
"C04_accepted_within_dumax": [
"TimeProps",
[]
],
"C05_rejected_trial_rolled_back": [
"TimeProps",
[]
],
"C06_time_forward": [
"TimeProps",
[
"ClassicalDedekindReals.sig_not_dec",
"ClassicalDedekindReals.sig_forall_dec",
"FunctionalExtensionality.functional_extensionality_dep"
]
],
"C06_time_never_decreases_b64": [
"TimeProps",
[
"ClassicalDedekindReals.sig_not_dec",
"ClassicalDedekindReals.sig_forall_dec",
"FunctionalExtensionality.functional_extensionality_dep",
"Classical_Prop.classic"
]
],
"C07_time_loop_ends_partial": [
"TimeProps",
[
"ClassicalDedekindReals.sig_not_dec",
"ClassicalDedekindReals.sig_forall_dec",
"FunctionalExtensionality.functional_extensionality_dep"
]
],
"C07_time_loop_ends_refuted": [
"TimeProps",
[
"ClassicalDedekindReals.sig_not_dec",
"ClassicalDedekindReals.sig_forall_dec",
"FunctionalExtensionality.functional_extensionality_dep",
"Classical_Prop.classic"
]
],
"C08_exit_status": [
"TimeProps",
[]
],
"C09_retry_smaller": [
"TimeProps",
[
"ClassicalDedekindReals.sig_not_dec",
"ClassicalDedekindReals.sig_forall_dec",
"FunctionalExtensionality.functional_extensionality_dep"
]
],
"C09_retry_smaller_b64": [
"TimeProps",
[
"ClassicalDedekindReals.sig_not_dec",
"ClassicalDedekindReals.sig_forall_dec",
"FunctionalExtensionality.functional_extensionality_dep",
"Classical_Prop.classic"
]
],
"C10_growth_bounded": [
"TimeProps",
[
"ClassicalDedekindReals.sig_not_dec",
"ClassicalDedekindReals.sig_forall_dec",
"FunctionalExtensionality.functional_extensionality_dep"
]
],
"C11_no_sliver": [
"TimeProps",
[
"ClassicalDedekindReals.sig_not_dec",
"ClassicalDedekindReals.sig_forall_dec",
"FunctionalExtensionality.functional_extensionality_dep"
]
],
"C11_short_stride_aborts_refuted": [
"TimeProps",
[
"ClassicalDedekindReals.sig_not_dec",
"ClassicalDedekindReals.sig_forall_dec",
"FunctionalExtensionality.functional_extensionality_dep",
"Classical_Prop.classic"
]
],
"C12_line_count": [
"TimeProps",
[
"ClassicalDedekindReals.sig_not_dec",
"ClassicalDedekindReals.sig_forall_dec",
"FunctionalExtensionality.functional_extensionality_dep"
]
],
"C12_last_line_past_final_time": [
"TimeProps",
[
"ClassicalDedekindReals.sig_not_dec",
"ClassicalDedekindReals.sig_forall_dec",
"FunctionalExtensionality.functional_extensionality_dep"
]
],
"C13_signals_partial": [
"TimeProps",
[]
],
"C13_saved_is_accepted_refuted": [
"TimeProps",
[
"ClassicalDedekindReals.sig_not_dec",
"ClassicalDedekindReals.sig_forall_dec",
"FunctionalExtensionality.functional_extensionality_dep",
"Classical_Prop.classic"
]
],
"C14_snapshots": [
"TimeProps",
[]
],
"C07_time_loop_ends_b64_partial": [
"TimeB64",
[
"ClassicalDedekindReals.sig_not_dec",
"ClassicalDedekindReals.sig_forall_dec",
"FunctionalExtensionality.functional_extensionality_dep",
"Classical_Prop.classic"
]
],
"C15_statistics": [
"StatsProps",
[
"ClassicalDedekindReals.sig_not_dec",
"ClassicalDedekindReals.sig_forall_dec",
"FunctionalExtensionality.functional_extensionality_dep",
"Classical_Prop.classic"
]
],
"C16_order_irrelevant": [
"StatsProps",
[
"ClassicalDedekindReals.sig_not_dec",
"ClassicalDedekindReals.sig_forall_dec",
"FunctionalExtensionality.functional_extensionality_dep",
"Classical_Prop.classic"
]
],
"C17_basis_orthonormal": [
"NodeProps",
[
"ClassicalDedekindReals.sig_not_dec",
"ClassicalDedekindReals.sig_forall_dec",
"FunctionalExtensionality.functional_extensionality_dep"
]
],
"C18_step_on_sphere": [
"NodeProps",
[
"ClassicalDedekindReals.sig_not_dec",
"ClassicalDedekindReals.sig_forall_dec",
"FunctionalExtensionality.functional_extensionality_dep",
"Classical_Prop.classic"
]
],
"C18_unit_sphere_invariant": [
"NodeProps",
[
"ClassicalDedekindReals.sig_not_dec",
"ClassicalDedekindReals.sig_forall_dec",
"FunctionalExtensionality.functional_extensionality_dep"
]
],
"C19_velocity_tangent": [
"NodeProps",
[
"ClassicalDedekindReals.sig_not_dec",
"ClassicalDedekindReals.sig_forall_dec",
"FunctionalExtensionality.functional_extensionality_dep"
]
],
"C20_angle_irrelevant": [
"NodeProps",
[
"ClassicalDedekindReals.sig_not_dec",
"ClassicalDedekindReals.sig_forall_dec",
"FunctionalExtensionality.functional_extensionality_dep"
]
],
"C80_trial_history": [
"NodeProps",
[
"ClassicalDedekindReals.sig_not_dec",
"ClassicalDedekindReals.sig_forall_dec",
"FunctionalExtensionality.functional_extensionality_dep"
]
],
"C21_sparse_map": [
"SparseProps",
[]
],
"C21_outside_shape_refuted": [
"SparseProps",
[
"ClassicalDedekindReals.sig_not_dec",
"ClassicalDedekindReals.sig_forall_dec",
"FunctionalExtensionality.functional_extensionality_dep"
]
],
"C22_concurrent_add_serializable": [
"SparseProps",
[]
],
"C22_no_lost_update": [
"SparseProps",
[
"ClassicalDedekindReals.sig_not_dec",
"ClassicalDedekindReals.sig_forall_dec",
"FunctionalExtensionality.functional_extensionality_dep"
]
],
"C22_progress": [
"SparseProps",
[]
],
"C22_mutual_exclusion": [
"SparseProps",
[]
],
"C23_mult": [
"SparseProps",
[
"ClassicalDedekindReals.sig_not_dec",
"ClassicalDedekindReals.sig_forall_dec",
"FunctionalExtensionality.functional_extensionality_dep"
]
],
"C24_diag_precond": [
"SparseProps",
[]
],
"C24_diag_precond_exact": [
"SparseProps",
[
"ClassicalDedekindReals.sig_not_dec",
"ClassicalDedekindReals.sig_forall_dec",
"FunctionalExtensionality.functional_extensionality_dep"
]
],
"C25_monitor_verdict": [
"IterProps",
[]
],
"C25_monitor_exact": [
"IterProps",
[
"ClassicalDedekindReals.sig_not_dec",
"ClassicalDedekindReals.sig_forall_dec",
"FunctionalExtensionality.functional_extensionality_dep"
]
],
"C25_monitor_nan": [
"IterProps",
[
"ClassicalDedekindReals.sig_not_dec",
"ClassicalDedekindReals.sig_forall_dec",
"FunctionalExtensionality.functional_extensionality_dep",
"Classical_Prop.classic"
]
],
"C25_counter": [
"IterProps",
[]
],
"C26_solvers_stop": [
"IterProps",
[]
],
"C27_converged_residual": [
"IterProps",
[
"ClassicalDedekindReals.sig_not_dec",
"ClassicalDedekindReals.sig_forall_dec",
"FunctionalExtensionality.functional_extensionality_dep"
]
],
"C27_double_overflow_refuted": [
"IterProps",
[
"ClassicalDedekindReals.sig_not_dec",
"ClassicalDedekindReals.sig_forall_dec",
"FunctionalExtensionality.functional_extensionality_dep",
"Classical_Prop.classic"
]
],
"C28_dirichlet_generic": [
"IterProps",
[]
],
"C28_dirichlet_values": [
"IterProps",
[
"ClassicalDedekindReals.sig_not_dec",
"ClassicalDedekindReals.sig_forall_dec",
"FunctionalExtensionality.functional_extensionality_dep",
"Classical_Prop.classic"
]
],
"C29_good_guess_untouched": [
"IterProps",
[
"ClassicalDedekindReals.sig_not_dec",
"ClassicalDedekindReals.sig_forall_dec",
"FunctionalExtensionality.functional_extensionality_dep"
]
],
"C30_positions_exist": [
"AsmProps",
[
"ClassicalDedekindReals.sig_forall_dec",
"FunctionalExtensionality.functional_extensionality_dep"
]
],
"C30_assembled": [
"AsmProps",
[
"ClassicalDedekindReals.sig_not_dec",
"ClassicalDedekindReals.sig_forall_dec",
"FunctionalExtensionality.functional_extensionality_dep"
]
],
"C30_stored_positions": [
"AsmProps",
[
"ClassicalDedekindReals.sig_forall_dec",
"FunctionalExtensionality.functional_extensionality_dep"
]
],
"C31_vector": [
"AsmProps",
[
"ClassicalDedekindReals.sig_not_dec",
"ClassicalDedekindReals.sig_forall_dec",
"FunctionalExtensionality.functional_extensionality_dep"
]
],
"C31_rhs": [
"AsmProps",
[
"ClassicalDedekindReals.sig_not_dec",
"ClassicalDedekindReals.sig_forall_dec",
"FunctionalExtensionality.functional_extensionality_dep"
]
],
"C32_solve_outcome": [
"AsmProps",
[
"ClassicalDedekindReals.sig_forall_dec",
"FunctionalExtensionality.functional_extensionality_dep"
]
],
"C32_absolute_check_refuted": [
"AsmProps",
[
"ClassicalDedekindReals.sig_not_dec",
"ClassicalDedekindReals.sig_forall_dec",
"FunctionalExtensionality.functional_extensionality_dep",
"Classical_Prop.classic"
]
],
"C33_nonmagnetic": [
"AsmProps",
[]
],
"C32_solution": [
"LlgProps",
[
"ClassicalDedekindReals.sig_not_dec",
"ClassicalDedekindReals.sig_forall_dec",
"FunctionalExtensionality.functional_extensionality_dep"
]
],
"C33_magnetic_diagonal": [
"LlgProps",
[
"ClassicalDedekindReals.sig_forall_dec",
"FunctionalExtensionality.functional_extensionality_dep"
]
],
"C77_unique_solution": [
"LlgProps",
[
"ClassicalDedekindReals.sig_not_dec",
"ClassicalDedekindReals.sig_forall_dec",
"FunctionalExtensionality.functional_extensionality_dep"
]
],
"C77_error_bound": [
"LlgProps",
[
"ClassicalDedekindReals.sig_not_dec",
"ClassicalDedekindReals.sig_forall_dec",
"FunctionalExtensionality.functional_extensionality_dep"
]
],
"C34_renumbering": [
"MeshProps",
[
"ClassicalDedekindReals.sig_forall_dec"
]
],
"C35_sorted": [
"MeshProps",
[
"ClassicalDedekindReals.sig_forall_dec",
"FunctionalExtensionality.functional_extensionality_dep"
]
],
"C35_longest_axis_partial": [
"MeshProps",
[
"ClassicalDedekindReals.sig_forall_dec",
"FunctionalExtensionality.functional_extensionality_dep"
]
],
"C35_longest_axis_refuted": [
"MeshProps",
[
"ClassicalDedekindReals.sig_forall_dec",
"FunctionalExtensionality.functional_extensionality_dep"
]
],
"C36_edges": [
"MeshProps",
[]
],
"C37_marking": [
"MeshProps",
[
"ClassicalDedekindReals.sig_forall_dec",
"FunctionalExtensionality.functional_extensionality_dep"
]
],
"C43_max_angle": [
"MeshProps",
[
"ClassicalDedekindReals.sig_not_dec",
"ClassicalDedekindReals.sig_forall_dec",
"FunctionalExtensionality.functional_extensionality_dep",
"Classical_Prop.classic"
]
],
"C44_initial_magnetization": [
"MeshProps",
[
"ClassicalDedekindReals.sig_not_dec",
"ClassicalDedekindReals.sig_forall_dec",
"FunctionalExtensionality.functional_extensionality_dep"
]
],
"C44_zero_vector_refuted": [
"MeshProps",
[
"ClassicalDedekindReals.sig_not_dec",
"ClassicalDedekindReals.sig_forall_dec",
"FunctionalExtensionality.functional_extensionality_dep"
]
],
"C73_volumes": [
"MeshProps",
[
"ClassicalDedekindReals.sig_forall_dec",
"FunctionalExtensionality.functional_extensionality_dep"
]
],
"C38_accepted": [
"CtrlProps",
[
"ClassicalDedekindReals.sig_forall_dec"
]
],
"C39_triangles": [
"CtrlProps",
[
"ClassicalDedekindReals.sig_forall_dec"
]
],
"C39_regions": [
"CtrlProps",
[
"ClassicalDedekindReals.sig_forall_dec"
]
],
"C40_jump": [
"ChargeProps",
[
"ClassicalDedekindReals.sig_forall_dec",
"FunctionalExtensionality.functional_extensionality_dep"
]
],
"C40_order_of_nodes": [
"ChargeProps",
[
"ClassicalDedekindReals.sig_not_dec",
"ClassicalDedekindReals.sig_forall_dec",
"FunctionalExtensionality.functional_extensionality_dep"
]
],
"C78_neutral": [
"ChargeProps",
[
"ClassicalDedekindReals.sig_not_dec",
"ClassicalDedekindReals.sig_forall_dec",
"FunctionalExtensionality.functional_extensionality_dep"
]
],
"C78_demag_energy": [
"ChargeProps",
[
"ClassicalDedekindReals.sig_not_dec",
"ClassicalDedekindReals.sig_forall_dec",
"FunctionalExtensionality.functional_extensionality_dep"
]
],
"C41_restore_partial": [
"SolProps",
[
"ClassicalDedekindReals.sig_not_dec",
"ClassicalDedekindReals.sig_forall_dec",
"FunctionalExtensionality.functional_extensionality_dep",
"Classical_Prop.classic"
]
],
"C41_exact": [
"SolProps",
[
"ClassicalDedekindReals.sig_not_dec",
"ClassicalDedekindReals.sig_forall_dec",
"FunctionalExtensionality.functional_extensionality_dep",
"Classical_Prop.classic"
]
],
"C41_error": [
"SolProps",
[
"ClassicalDedekindReals.sig_not_dec",
"ClassicalDedekindReals.sig_forall_dec",
"FunctionalExtensionality.functional_extensionality_dep",
"Classical_Prop.classic"
]
],
"C41_same_file": [
"SolProps",
[
"ClassicalDedekindReals.sig_not_dec",
"ClassicalDedekindReals.sig_forall_dec",
"FunctionalExtensionality.functional_extensionality_dep",
"Classical_Prop.classic"
]
],
"C41_metadata_refuted": [
"SolProps",
[
"ClassicalDedekindReals.sig_not_dec",
"ClassicalDedekindReals.sig_forall_dec",
"FunctionalExtensionality.functional_extensionality_dep",
"Classical_Prop.classic"
]
],
"C41_nan_refuted": [
"SolProps",
[]
],
"C41_spin_refuted": [
"SolProps",
[
"ClassicalDedekindReals.sig_not_dec",
"ClassicalDedekindReals.sig_forall_dec",
"FunctionalExtensionality.functional_extensionality_dep",
"Classical_Prop.classic"
]
],
"C42_average": [
"ElemProps",
[
"ClassicalDedekindReals.sig_not_dec",
"ClassicalDedekindReals.sig_forall_dec",
"FunctionalExtensionality.functional_extensionality_dep"
]
],
"C45_orientation": [
"ElemProps",
[
"ClassicalDedekindReals.sig_forall_dec",
"FunctionalExtensionality.functional_extensionality_dep"
]
],
"C46_gradient_affine": [
"ElemProps",
[
"ClassicalDedekindReals.sig_forall_dec",
"FunctionalExtensionality.functional_extensionality_dep"
]
],
"C46_derivatives_affine": [
"ElemProps",
[
"ClassicalDedekindReals.sig_forall_dec",
"FunctionalExtensionality.functional_extensionality_dep"
]
],
"C48_alpha_eff": [
"ElemProps",
[
"ClassicalDedekindReals.sig_forall_dec",
"FunctionalExtensionality.functional_extensionality_dep"
]
],
"C49_local_matrix_positive": [
"ElemProps",
[
"ClassicalDedekindReals.sig_forall_dec",
"FunctionalExtensionality.functional_extensionality_dep"
]
],
"C50_exchange": [
"ElemProps",
[
"ClassicalDedekindReals.sig_forall_dec",
"FunctionalExtensionality.functional_extensionality_dep"
]
],
"C50_uniaxial": [
"ElemProps",
[
"ClassicalDedekindReals.sig_forall_dec",
"FunctionalExtensionality.functional_extensionality_dep"
]
],
"C50_cubic_uniform": [
"ElemProps",
[
"ClassicalDedekindReals.sig_forall_dec",
"FunctionalExtensionality.functional_extensionality_dep"
]
],
"C50_zeeman": [
"ElemProps",
[
"ClassicalDedekindReals.sig_not_dec",
"ClassicalDedekindReals.sig_forall_dec",
"FunctionalExtensionality.functional_extensionality_dep"
]
],
"C50_surface_anisotropy": [
"ElemProps",
[
"ClassicalDedekindReals.sig_not_dec",
"ClassicalDedekindReals.sig_forall_dec",
"FunctionalExtensionality.functional_extensionality_dep"
]
],
"C51_charges_sum": [
"ElemProps",
[
"ClassicalDedekindReals.sig_not_dec",
"ClassicalDedekindReals.sig_forall_dec",
"FunctionalExtensionality.functional_extensionality_dep"
]
],
"C51_faces_outwards": [
"ElemProps",
[
"ClassicalDedekindReals.sig_forall_dec",
"FunctionalExtensionality.functional_extensionality_dep"
]
],
"C52_triangle": [
"ElemProps",
[
"ClassicalDedekindReals.sig_not_dec",
"ClassicalDedekindReals.sig_forall_dec",
"FunctionalExtensionality.functional_extensionality_dep"
]
],
"C74_field_is_gradient": [
"ElemProps",
[
"ClassicalDedekindReals.sig_forall_dec",
"FunctionalExtensionality.functional_extensionality_dep"
]
],
"C74_uniaxial_second_order": [
"ElemProps",
[
"ClassicalDedekindReals.sig_forall_dec",
"FunctionalExtensionality.functional_extensionality_dep"
]
],
"C74_cubic_second_order_refuted": [
"ElemProps",
[
"ClassicalDedekindReals.sig_forall_dec",
"FunctionalExtensionality.functional_extensionality_dep"
]
],
"C75_demag_energy": [
"ElemProps",
[
"ClassicalDedekindReals.sig_not_dec",
"ClassicalDedekindReals.sig_forall_dec",
"FunctionalExtensionality.functional_extensionality_dep"
]
],
"C76_equilibrium": [
"ElemProps",
[
"ClassicalDedekindReals.sig_forall_dec",
"FunctionalExtensionality.functional_extensionality_dep"
]
],
"C47_quadrature": [
"QuadProps",
[
"ClassicalDedekindReals.sig_not_dec",
"ClassicalDedekindReals.sig_forall_dec",
"FunctionalExtensionality.functional_extensionality_dep",
"Classical_Prop.classic"
]
],
"C53_energy_partial": [
"EnergyProps",
[
"ClassicalDedekindReals.sig_not_dec",
"ClassicalDedekindReals.sig_forall_dec",
"FunctionalExtensionality.functional_extensionality_dep"
]
],
"C53_magnetic_only": [
"EnergyProps",
[
"ClassicalDedekindReals.sig_forall_dec",
"FunctionalExtensionality.functional_extensionality_dep"
]
],
"C53_space_field_refuted": [
"EnergyProps",
[
"ClassicalDedekindReals.sig_not_dec",
"ClassicalDedekindReals.sig_forall_dec",
"FunctionalExtensionality.functional_extensionality_dep"
]
],
"C53_warning": [
"EnergyProps",
[
"ClassicalDedekindReals.sig_forall_dec",
"FunctionalExtensionality.functional_extensionality_dep"
]
],
"C53_evaluation_time": [
"EnergyProps",
[]
],
"C53_line_time_refuted": [
"EnergyProps",
[
"ClassicalDedekindReals.sig_forall_dec",
"FunctionalExtensionality.functional_extensionality_dep"
]
],
"C54_below": [
"RecenterProps",
[
"ClassicalDedekindReals.sig_forall_dec",
"FunctionalExtensionality.functional_extensionality_dep"
]
],
"C54_recenter_partial": [
"RecenterProps",
[
"ClassicalDedekindReals.sig_forall_dec",
"FunctionalExtensionality.functional_extensionality_dep"
]
],
"C54_no_wall": [
"RecenterProps",
[
"ClassicalDedekindReals.sig_forall_dec",
"FunctionalExtensionality.functional_extensionality_dep"
]
],
"C54_inside": [
"RecenterProps",
[
"ClassicalDedekindReals.sig_forall_dec",
"FunctionalExtensionality.functional_extensionality_dep"
]
],
"C54_wall_centred": [
"RecenterProps",
[
"ClassicalDedekindReals.sig_forall_dec",
"FunctionalExtensionality.functional_extensionality_dep"
]
],
"C54_direction_refuted": [
"RecenterProps",
[]
],
"C54_nan_refuted": [
"RecenterProps",
[
"ClassicalDedekindReals.sig_forall_dec",
"FunctionalExtensionality.functional_extensionality_dep"
]
],
"C54_frontier_refuted": [
"RecenterProps",
[
"ClassicalDedekindReals.sig_forall_dec",
"FunctionalExtensionality.functional_extensionality_dep"
]
],
"C55_last_definition_partial": [
"SettingsProps",
[]
],
"C55_columns": [
"SettingsProps",
[]
],
"C55_period": [
"SettingsProps",
[]
],
"C55_direction_refuted": [
"SettingsProps",
[
"ClassicalDedekindReals.sig_not_dec",
"ClassicalDedekindReals.sig_forall_dec",
"FunctionalExtensionality.functional_extensionality_dep"
]
],
"C55_magnetization_refuted": [
"SettingsProps",
[
"ClassicalDedekindReals.sig_not_dec",
"ClassicalDedekindReals.sig_forall_dec",
"FunctionalExtensionality.functional_extensionality_dep"
]
],
"C55_basename_refuted": [
"SettingsProps",
[
"ClassicalDedekindReals.sig_not_dec",
"ClassicalDedekindReals.sig_forall_dec",
"FunctionalExtensionality.functional_extensionality_dep"
]
],
"C55_region_refuted": [
"SettingsProps",
[
"ClassicalDedekindReals.sig_not_dec",
"ClassicalDedekindReals.sig_forall_dec",
"FunctionalExtensionality.functional_extensionality_dep"
]
],
"C56_regions": [
"SettingsProps",
[]
],
"C56_refused": [
"SettingsProps",
[]
],
"C56_axes_unit": [
"SettingsProps",
[
"ClassicalDedekindReals.sig_not_dec",
"ClassicalDedekindReals.sig_forall_dec",
"FunctionalExtensionality.functional_extensionality_dep"
]
],
"C57_metadata": [
"TextProps",
[]
],
"C58_header_partial": [
"TextProps",
[]
],
"C58_commented_partial": [
"TextProps",
[]
],
"C58_empty_value_refuted": [
"TextProps",
[]
],
"C58_no_column_refuted": [
"TextProps",
[]
],
"C58_key_refuted": [
"TextProps",
[]
],
"C59_replace": [
"TextProps",
[]
],
"C59_terminates": [
"TextProps",
[]
],
"C59_empty_refuted": [
"TextProps",
[]
],
"C60_base_name": [
"TextProps",
[]
],
"C62_find_region": [
"TextProps",
[]
],
"C64_pad": [
"TextProps",
[]
],
"C81_directory": [
"TextProps",
[]
],
"C61_quoted_partial": [
"YamlProps",
[]
],
"C61_literal_partial": [
"YamlProps",
[]
],
"C61_backslash_refuted": [
"YamlProps",
[]
],
"C61_lines_refuted": [
"YamlProps",
[]
],
"C63_command_line_partial": [
"MainProps",
[]
],
"C63_reading_exists": [
"MainProps",
[]
],
"C63_seed_value": [
"MainProps",
[]
],
"C63_empty_refuted": [
"MainProps",
[]
],
"C72_laps": [
"MainProps",
[]
],
"C72_seconds": [
"MainProps",
[
"ClassicalDedekindReals.sig_not_dec",
"ClassicalDedekindReals.sig_forall_dec",
"FunctionalExtensionality.functional_extensionality_dep"
]
],
"C83_user_defaults": [
"MainProps",
[]
],
"C65_evaluations": [
"ParserProps",
[]
],
"C65_sole_element": [
"ParserProps",
[]
],
"C65_errors": [
"ParserProps",
[]
],
"C65_repeatable": [
"ParserProps",
[]
],
"C65_regions": [
"ParserProps",
[]
],
"C65_not_a_number": [
"ParserProps",
[]
],
"C65_no_value": [
"ParserProps",
[]
],
"C65_space_expressions_refuted": [
"ParserProps",
[
"ClassicalDedekindReals.sig_not_dec",
"ClassicalDedekindReals.sig_forall_dec",
"FunctionalExtensionality.functional_extensionality_dep"
]
],
"C66_attribution": [
"DemagProps",
[
"ClassicalDedekindReals.sig_not_dec",
"ClassicalDedekindReals.sig_forall_dec",
"FunctionalExtensionality.functional_extensionality_dep",
"Classical_Prop.classic"
]
],
"C66_node_potential": [
"DemagProps",
[
"ClassicalDedekindReals.sig_not_dec",
"ClassicalDedekindReals.sig_forall_dec",
"FunctionalExtensionality.functional_extensionality_dep",
"Classical_Prop.classic"
]
],
"C66_both_potentials": [
"DemagProps",
[
"ClassicalDedekindReals.sig_not_dec",
"ClassicalDedekindReals.sig_forall_dec",
"FunctionalExtensionality.functional_extensionality_dep",
"Classical_Prop.classic"
]
],
"C66_in_box": [
"DemagProps",
[
"ClassicalDedekindReals.sig_forall_dec",
"FunctionalExtensionality.functional_extensionality_dep"
]
],
"C67_one_field_per_column": [
"ColumnProps",
[]
],
"C67_refused": [
"ColumnProps",
[]
],
"C67_line": [
"ColumnProps",
[]
],
"C67_region_field_refuted": [
"ColumnProps",
[]
],
"C82_files": [
"ColumnProps",
[]
],
"C82_period": [
"ColumnProps",
[]
],
"C68_electrostatic": [
"BoundaryProps",
[
"ClassicalDedekindReals.sig_not_dec",
"ClassicalDedekindReals.sig_forall_dec",
"FunctionalExtensionality.functional_extensionality_dep"
]
],
"C68_electrostatic_binary64": [
"BoundaryProps",
[
"ClassicalDedekindReals.sig_not_dec",
"ClassicalDedekindReals.sig_forall_dec",
"FunctionalExtensionality.functional_extensionality_dep",
"Classical_Prop.classic"
]
],
"C68_spin_partial": [
"BoundaryProps",
[
"ClassicalDedekindReals.sig_not_dec",
"ClassicalDedekindReals.sig_forall_dec",
"FunctionalExtensionality.functional_extensionality_dep"
]
],
"C68_second_default_refused": [
"BoundaryProps",
[
"ClassicalDedekindReals.sig_not_dec",
"ClassicalDedekindReals.sig_forall_dec",
"FunctionalExtensionality.functional_extensionality_dep"
]
],
"C68_default_once": [
"BoundaryProps",
[
"ClassicalDedekindReals.sig_not_dec",
"ClassicalDedekindReals.sig_forall_dec",
"FunctionalExtensionality.functional_extensionality_dep"
]
],
"C68_unchecked_parameters_refuted": [
"BoundaryProps",
[
"ClassicalDedekindReals.sig_not_dec",
"ClassicalDedekindReals.sig_forall_dec",
"FunctionalExtensionality.functional_extensionality_dep"
]
],
"C68_both_on_one_surface_refuted": [
"BoundaryProps",
[
"ClassicalDedekindReals.sig_not_dec",
"ClassicalDedekindReals.sig_forall_dec",
"FunctionalExtensionality.functional_extensionality_dep"
]
],
"C69_dirichlet": [
"BoundaryProps",
[
"ClassicalDedekindReals.sig_not_dec",
"ClassicalDedekindReals.sig_forall_dec",
"FunctionalExtensionality.functional_extensionality_dep"
]
],
"C69_potential": [
"BoundaryProps",
[
"ClassicalDedekindReals.sig_not_dec",
"ClassicalDedekindReals.sig_forall_dec",
"FunctionalExtensionality.functional_extensionality_dep"
]
],
"C70_symmetric": [
"ElectroProps",
[
"ClassicalDedekindReals.sig_forall_dec",
"FunctionalExtensionality.functional_extensionality_dep"
]
],
"C70_rows_sum_to_zero": [
"ElectroProps",
[
"ClassicalDedekindReals.sig_forall_dec",
"FunctionalExtensionality.functional_extensionality_dep"
]
],
"C70_power": [
"ElectroProps",
[
"ClassicalDedekindReals.sig_forall_dec",
"FunctionalExtensionality.functional_extensionality_dep"
]
],
"C70_positive": [
"ElectroProps",
[
"ClassicalDedekindReals.sig_forall_dec",
"FunctionalExtensionality.functional_extensionality_dep"
]
],
"C70_null_iff_constant": [
"ElectroProps",
[
"ClassicalDedekindReals.sig_forall_dec",
"FunctionalExtensionality.functional_extensionality_dep"
]
],
"C87_potential": [
"ElectroProps",
[
"ClassicalDedekindReals.sig_not_dec",
"ClassicalDedekindReals.sig_forall_dec",
"FunctionalExtensionality.functional_extensionality_dep"
]
],
"C87_solved": [
"ElectroProps",
[
"ClassicalDedekindReals.sig_not_dec",
"ClassicalDedekindReals.sig_forall_dec",
"FunctionalExtensionality.functional_extensionality_dep"
]
],
"C87_unique": [
"ElectroProps",
[
"ClassicalDedekindReals.sig_not_dec",
"ClassicalDedekindReals.sig_forall_dec",
"FunctionalExtensionality.functional_extensionality_dep"
]
],
"C87_infinite_potential_refuted": [
"ElectroProps",
[
"ClassicalDedekindReals.sig_not_dec",
"ClassicalDedekindReals.sig_forall_dec",
"FunctionalExtensionality.functional_extensionality_dep"
]
],
"C71_same_magnetization_partial": [
"SpinProps",
[
"ClassicalDedekindReals.sig_not_dec",
"ClassicalDedekindReals.sig_forall_dec",
"FunctionalExtensionality.functional_extensionality_dep"
]
],
"C71_mean_of_the_calls": [
"SpinProps",
[
"ClassicalDedekindReals.sig_not_dec",
"ClassicalDedekindReals.sig_forall_dec",
"FunctionalExtensionality.functional_extensionality_dep"
]
],
"C71_system_grows": [
"SpinProps",
[
"ClassicalDedekindReals.sig_not_dec",
"ClassicalDedekindReals.sig_forall_dec",
"FunctionalExtensionality.functional_extensionality_dep"
]
],
"C71_history_refuted": [
"SpinProps",
[
"ClassicalDedekindReals.sig_not_dec",
"ClassicalDedekindReals.sig_forall_dec",
"FunctionalExtensionality.functional_extensionality_dep"
]
],
"C88_accumulation": [
"SpinProps",
[
"ClassicalDedekindReals.sig_not_dec",
"ClassicalDedekindReals.sig_forall_dec",
"FunctionalExtensionality.functional_extensionality_dep"
]
],
"C88_failure": [
"SpinProps",
[
"ClassicalDedekindReals.sig_not_dec",
"ClassicalDedekindReals.sig_forall_dec",
"FunctionalExtensionality.functional_extensionality_dep"
]
],
"C88_unique": [
"SpinProps",
[
"ClassicalDedekindReals.sig_not_dec",
"ClassicalDedekindReals.sig_forall_dec",
"FunctionalExtensionality.functional_extensionality_dep"
]
],
"C88_error": [
"SpinProps",
[
"ClassicalDedekindReals.sig_not_dec",
"ClassicalDedekindReals.sig_forall_dec",
"FunctionalExtensionality.functional_extensionality_dep"
]
],
"C79_trial_statistics": [
"CountProps",
[]
],
"C79_successful_refuted": [
"CountProps",
[
"ClassicalDedekindReals.sig_not_dec",
"ClassicalDedekindReals.sig_forall_dec",
"FunctionalExtensionality.functional_extensionality_dep",
"Classical_Prop.classic"
]
],
"C84_energy_gradient_partial": [
"WeakProps",
[
"ClassicalDedekindReals.sig_forall_dec",
"FunctionalExtensionality.functional_extensionality_dep"
]
],
"C84_surface": [
"WeakProps",
[
"ClassicalDedekindReals.sig_not_dec",
"ClassicalDedekindReals.sig_forall_dec",
"FunctionalExtensionality.functional_extensionality_dep"
]
],
"C84_surface_factor_refuted": [
"WeakProps",
[
"ClassicalDedekindReals.sig_not_dec",
"ClassicalDedekindReals.sig_forall_dec",
"FunctionalExtensionality.functional_extensionality_dep"
]
],
"C84_transfer_and_drift": [
"WeakProps",
[
"ClassicalDedekindReals.sig_forall_dec",
"FunctionalExtensionality.functional_extensionality_dep"
]
],
"C84_field_along_m": [
"WeakProps",
[
"ClassicalDedekindReals.sig_forall_dec",
"FunctionalExtensionality.functional_extensionality_dep"
]
],
"C84_drift_step_refuted": [
"WeakProps",
[
"ClassicalDedekindReals.sig_forall_dec",
"FunctionalExtensionality.functional_extensionality_dep"
]
],
"C84_rows": [
"WeakProps",
[
"ClassicalDedekindReals.sig_not_dec",
"ClassicalDedekindReals.sig_forall_dec",
"FunctionalExtensionality.functional_extensionality_dep"
]
],
"C85_thiele": [
"WeakProps",
[
"ClassicalDedekindReals.sig_forall_dec",
"FunctionalExtensionality.functional_extensionality_dep"
]
],
"C86_vertex_potential": [
"PotentialProps",
[
"ClassicalDedekindReals.sig_not_dec",
"ClassicalDedekindReals.sig_forall_dec",
"FunctionalExtensionality.functional_extensionality_dep",
"Classical_Prop.classic"
]
],
"C86_integral_unique": [
"PotentialProps",
[
"ClassicalDedekindReals.sig_not_dec",
"ClassicalDedekindReals.sig_forall_dec",
"FunctionalExtensionality.functional_extensionality_dep",
"Classical_Prop.classic"
]
],
"C89_gradients_converge": [
"CgProps",
[
"ClassicalDedekindReals.sig_not_dec",
"ClassicalDedekindReals.sig_forall_dec",
"FunctionalExtensionality.functional_extensionality_dep"
]
],
"C90_functions": [
"JsLibProps",
[
"ClassicalDedekindReals.sig_not_dec",
"ClassicalDedekindReals.sig_forall_dec",
"FunctionalExtensionality.functional_extensionality_dep",
"Classical_Prop.classic"
]
],
"C90_inverses": [
"JsLibProps",
[
"ClassicalDedekindReals.sig_not_dec",
"ClassicalDedekindReals.sig_forall_dec",
"FunctionalExtensionality.functional_extensionality_dep",
"Classical_Prop.classic"
]
],
"C90_all_values": [
"JsLibProps",
[
"ClassicalDedekindReals.sig_not_dec",
"ClassicalDedekindReals.sig_forall_dec",
"FunctionalExtensionality.functional_extensionality_dep",
"Classical_Prop.classic"
]
],
"C91_contributed": [
"ReadProps",
[]
],
"C91_mesh": [
"ReadProps",
[
"ClassicalDedekindReals.sig_forall_dec",
"FunctionalExtensionality.functional_extensionality_dep"
]
],
"C91_refused": [
"ReadProps",
[
"ClassicalDedekindReals.sig_forall_dec",
"FunctionalExtensionality.functional_extensionality_dep"
]
],
"C91_final_mesh": [
"ReadProps",
[
"ClassicalDedekindReals.sig_forall_dec",
"FunctionalExtensionality.functional_extensionality_dep"
]
],
"C91_two_groups_refuted": [
"ReadProps",
[
"ClassicalDedekindReals.sig_forall_dec",
"FunctionalExtensionality.functional_extensionality_dep"
]
],
"C91_missing_node_refuted": [
"ReadProps",
[
"ClassicalDedekindReals.sig_forall_dec",
"FunctionalExtensionality.functional_extensionality_dep"
]
],
"C91_empty_volume_refuted": [
"ReadProps",
[
"ClassicalDedekindReals.sig_forall_dec",
"FunctionalExtensionality.functional_extensionality_dep"
]
],
"C92_no_time_partial": [
"RestoreProps",
[]
],
"C92_line_number_partial": [
"RestoreProps",
[
"ClassicalDedekindReals.sig_not_dec",
"ClassicalDedekindReals.sig_forall_dec",
"FunctionalExtensionality.functional_extensionality_dep",
"Classical_Prop.classic"
]
],
"C92_larger_mesh_refuted": [
"RestoreProps",
[
"ClassicalDedekindReals.sig_not_dec",
"ClassicalDedekindReals.sig_forall_dec",
"FunctionalExtensionality.functional_extensionality_dep",
"Classical_Prop.classic"
]
],
"C92_smaller_mesh_refuted": [
"RestoreProps",
[
"ClassicalDedekindReals.sig_not_dec",
"ClassicalDedekindReals.sig_forall_dec",
"FunctionalExtensionality.functional_extensionality_dep",
"Classical_Prop.classic"
]
]
}