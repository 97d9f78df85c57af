{
 "claims": [
  {
   "property": "C01",
   "status": "proved",
   "theorems": [
    "grid_identity",
    "grid_init_iff",
    "grid_requested"
   ],
   "note": ""
  },
  {
   "property": "C02",
   "status": "proved",
   "theorems": [
    "mesh_points",
    "eval_on_mesh_spec",
    "mesh_inside"
   ],
   "note": ""
  },
  {
   "property": "C03",
   "status": "proved",
   "theorems": [
    "ufunc_sound",
    "ufunc_complete",
    "ufunc_mismatch",
    "applied_spec"
   ],
   "note": ""
  },
  {
   "property": "C04",
   "status": "proved",
   "theorems": [
    "cv_offsets_spec",
    "cell_faces_spec",
    "averaged_offset_spec",
    "gridvariable_ndim"
   ],
   "note": ""
  },
  {
   "property": "C05",
   "status": "proved",
   "theorems": [
    "shift_is_cyclic"
   ],
   "note": ""
  },
  {
   "property": "C06",
   "status": "proved",
   "theorems": [
    "shift_compose",
    "shift_inverse",
    "shift_commute"
   ],
   "note": ""
  },
  {
   "property": "C07",
   "status": "proved",
   "theorems": [
    "pads_are_periodic_extension",
    "pad_is_periodic_extension"
   ],
   "note": ""
  },
  {
   "property": "C08",
   "status": "proved",
   "theorems": [
    "dirichlet_mirror_padding",
    "wall_extend_padding",
    "wall_shift_up",
    "wall_shift_down",
    "edge_padding_above",
    "edge_padding_below",
    "edge_mirror_average_refuted"
   ],
   "note": ""
  },
  {
   "property": "C09",
   "status": "proved",
   "theorems": [
    "impose_bc_sets_wall_entries",
    "impose_bc_no_walls",
    "impose_bc_idempotent"
   ],
   "note": ""
  },
  {
   "property": "C10",
   "status": "proved",
   "theorems": [
    "lower_ghost_cell",
    "upper_ghost_cell",
    "neumann_edge_raises",
    "neumann_mirror_padding",
    "neumann_mirror_slope_refuted"
   ],
   "note": ""
  },
  {
   "property": "C11",
   "status": "proved",
   "theorems": [
    "trim_boundary_undoes_padding",
    "trim_boundary_restores",
    "trim_boundary_periodic_edge_refuted"
   ],
   "note": ""
  },
  {
   "property": "C12",
   "status": "proved",
   "theorems": [
    "pressure_bc_consistent",
    "pressure_bc_mixed_raises"
   ],
   "note": ""
  },
  {
   "property": "C13",
   "status": "proved",
   "theorems": [
    "flux_bc_sound",
    "flux_bc_complete",
    "flux_bc_unsupported_raises"
   ],
   "note": ""
  },
  {
   "property": "C14",
   "status": "proved",
   "theorems": [
    "forward_difference_spec",
    "backward_difference_spec",
    "central_difference_spec",
    "differences_exact_on_affine",
    "differences_linear",
    "differences_of_constant"
   ],
   "note": ""
  },
  {
   "property": "C15",
   "status": "proved",
   "theorems": [
    "laplacian_spec",
    "laplacian_is_div_grad",
    "laplacian_linear",
    "laplacian_constant"
   ],
   "note": ""
  },
  {
   "property": "C16",
   "status": "proved",
   "theorems": [
    "divergence_spec",
    "divergence_conserves",
    "differences_conserve",
    "summation_by_parts"
   ],
   "note": ""
  },
  {
   "property": "C17",
   "status": "proved",
   "theorems": [
    "curl_2d_of_gradient",
    "div_of_curl_3d",
    "curl_3d_defined",
    "curl_3d_of_gradient"
   ],
   "note": ""
  },
  {
   "property": "C18",
   "status": "proved",
   "theorems": [
    "laplacian_symmetric",
    "laplacian_negative"
   ],
   "note": ""
  },
  {
   "property": "C19",
   "status": "proved",
   "theorems": [
    "projection_divergence_free",
    "projection_constant_pressure"
   ],
   "note": ""
  },
  {
   "property": "C20",
   "status": "proved",
   "theorems": [
    "laplacian_matrices_axis",
    "laplacian_matrices_are_fd_laplacian",
    "laplacian_matrix_size_two_refuted",
    "laplacian_matrix_two_cells_decoupled_refuted",
    "laplacian_matrix_errors"
   ],
   "note": ""
  },
  {
   "property": "C21",
   "status": "proved",
   "theorems": [
    "fast_diag_matmul_spec",
    "fast_diag_joint_eigenvectors",
    "pseudoinverse_solves",
    "pseudoinverse_pap",
    "fast_diag_dispatch",
    "implementations_agree",
    "transform_eigenvector",
    "pseudoinverse_solves_every_implementation",
    "default_implementation",
    "rfft_equals_fft"
   ],
   "note": ""
  },
  {
   "property": "C22",
   "status": "proved",
   "theorems": [
    "implicit_diffusion_insulated",
    "implicit_diffusion_walls",
    "implicit_diffusion_cavity_refuted",
    "implicit_diffusion_axis0_refuted",
    "implicit_diffusion_1d_dirichlet_refuted",
    "implicit_diffusion_unique",
    "diffusion_solve_cg_solves",
    "implicit_diffusion_rejects_flux"
   ],
   "note": ""
  },
  {
   "property": "C23",
   "status": "proved",
   "theorems": [
    "stable_time_step_value",
    "diffuse_is_scaled_laplacian",
    "diffusion_maximum_principle",
    "diffusion_conserves_total",
    "diffusion_maximum_principle_dirichlet_refuted"
   ],
   "note": ""
  },
  {
   "property": "C24",
   "status": "proved",
   "theorems": [
    "linear_interpolation_spec",
    "linear_interpolation_identity",
    "linear_interpolation_bad_length",
    "linear_interpolation_bounded",
    "linear_interpolation_total",
    "linear_interpolation_affine"
   ],
   "note": ""
  },
  {
   "property": "C25",
   "status": "proved",
   "theorems": [
    "upwind_face_spec",
    "upwind_spec",
    "upwind_identity",
    "upwind_two_axes_raises"
   ],
   "note": ""
  },
  {
   "property": "C26",
   "status": "proved",
   "theorems": [
    "van_leer_limiter_bounds",
    "lax_wendroff_face_spec",
    "limited_interpolation_spec",
    "limited_interpolation_bounded",
    "limited_interpolation_unsupported"
   ],
   "note": ""
  },
  {
   "property": "C27",
   "status": "proved",
   "theorems": [
    "advect_linear_flux_form",
    "advect_upwind_flux_form",
    "advect_limited_flux_form",
    "advect_general_conserves",
    "advection_schemes_conserve",
    "advect_general_unsupported",
    "advect_inhomogeneous_velocity"
   ],
   "note": ""
  },
  {
   "property": "C28",
   "status": "proved",
   "theorems": [
    "advection_of_constant"
   ],
   "note": ""
  },
  {
   "property": "C29",
   "status": "proved",
   "theorems": [
    "convect_linear_spec",
    "convect_is_advection"
   ],
   "note": ""
  },
  {
   "property": "C30",
   "status": "proved",
   "theorems": [
    "upwind_max_principle",
    "advection_cfl",
    "upwind_stable_step",
    "limited_advection_tvd",
    "van_leer_and_upwind_tvd"
   ],
   "note": ""
  },
  {
   "property": "C31",
   "status": "proved",
   "theorems": [
    "semilagrangian_spec",
    "semilagrangian_bounded",
    "semilagrangian_whole_cells",
    "semilagrangian_origin",
    "semilagrangian_constant_velocity_conserves"
   ],
   "note": ""
  },
  {
   "property": "C32",
   "status": "proved",
   "theorems": [
    "downsample_component_spec",
    "downsample_divergence",
    "downsample_divergence_free",
    "downsample_compose",
    "downsample_refuses",
    "downsample_direction_unchecked_refuted"
   ],
   "note": ""
  },
  {
   "property": "C33",
   "status": "proved",
   "theorems": [
    "repeated_is_iteration",
    "repeated_add",
    "repeated_nested",
    "trajectory_frames",
    "trajectory_start_with_input_shift"
   ],
   "note": ""
  },
  {
   "property": "C34",
   "status": "proved",
   "theorems": [
    "init_context_single_call",
    "init_context_restored",
    "init_context_calls"
   ],
   "note": ""
  },
  {
   "property": "C35",
   "status": "proved",
   "theorems": [
    "rk_step_is_tableau",
    "butcher_tableau_check",
    "rk_named_schemes"
   ],
   "note": ""
  },
  {
   "property": "C36",
   "status": "proved",
   "theorems": [
    "rk_taylor",
    "rk_steady_state",
    "rk_convergence"
   ],
   "note": ""
  },
  {
   "property": "C37",
   "status": "proved",
   "theorems": [
    "backward_forward_euler_equation",
    "crank_nicolson_rk2_equation",
    "low_storage_equations",
    "low_storage_length_check_refuted",
    "backward_forward_euler_order",
    "crank_nicolson_rk2_order",
    "crank_nicolson_rk3_order",
    "steady_states_kept"
   ],
   "note": "The rejection clause is false of the code: low_storage_length_check_refuted proves the chained comparison accepts mismatched gammas."
  },
  {
   "property": "C38",
   "status": "proved",
   "theorems": [
    "imex_full_sum",
    "imex_stage_equation",
    "imex_tableau_check",
    "imex_never_reads_missing_stage",
    "imex_sil3_order"
   ],
   "note": ""
  },
  {
   "property": "C39",
   "status": "proved",
   "theorems": [
    "ns2d_implicit_solve_exact",
    "burgers_implicit_solve_exact",
    "ks_implicit_solve_exact",
    "ks_implicit_solvable_refuted",
    "nls_implicit_solve_exact"
   ],
   "note": ""
  },
  {
   "property": "C40",
   "status": "proved",
   "theorems": [
    "vorticity_to_velocity_correct",
    "velocity_divisor_nonzero",
    "spectral_curl_of_velocity"
   ],
   "note": ""
  },
  {
   "property": "C41",
   "status": "proved",
   "theorems": [
    "brick_wall_is_mask",
    "brick_wall_idempotent",
    "brick_wall_dealiases",
    "circular_filter_range",
    "pad_truncate_round_trip",
    "smooth_ks_needs_multiple_of_four_refuted",
    "pad_truncate_2x_round_trip",
    "exponential_filter_damps",
    "exponential_filter_odd_refuted"
   ],
   "note": ""
  },
  {
   "property": "C42",
   "status": "proved",
   "theorems": [
    "normalize_axis_spec",
    "split_along_axis_spec",
    "concat_split_identity",
    "split_along_axis_errors",
    "slice_along_axis_int",
    "slice_along_axis_stride",
    "split_axis_spec",
    "unstack_spec",
    "split_axis_errors",
    "concat_split_axis_identity"
   ],
   "note": ""
  },
  {
   "property": "C43",
   "status": "proved",
   "theorems": [
    "gram_schmidt_qr_correct",
    "gram_schmidt_qr_unique"
   ],
   "note": ""
  },
  {
   "property": "C44",
   "status": "proved",
   "theorems": [
    "interp1d_interpolates",
    "interp1d_nodes_and_range",
    "interp1d_sorted_accepts",
    "interp1d_unsorted_length_check_refuted"
   ],
   "note": ""
  },
  {
   "property": "C45",
   "status": "proved",
   "theorems": [
    "tiles_are_blocks",
    "tiles_back_and_forth",
    "bad_layout_refused",
    "halo_is_window",
    "halo_too_wide_refused",
    "tiled_convolution",
    "periodic_convolution_exact",
    "layout_irrelevant",
    "kernel_too_wide_refused",
    "roll_patches",
    "conv_patches_are_roll_patches",
    "fused_patches_same_shape",
    "fused_patches_mixed_shapes_fail"
   ],
   "note": ""
  },
  {
   "property": "C46",
   "status": "proved",
   "theorems": [
    "cell_average_is_integral",
    "exponents_complete",
    "constraints_mean_exactness",
    "constraints_found_if_possible",
    "default_coefficients_exact",
    "constrained_weights_exact",
    "supplied_bias_accuracy",
    "zero_input_gives_bias",
    "default_bias_accepted",
    "layer_refuses",
    "roll_and_shift",
    "stencil_positions",
    "derivative_layer_runs",
    "derivative_layer_exact",
    "overdetermined_layer_refuted",
    "roll_without_axis_refuted"
   ],
   "note": "Also proved false of the code: exactness of the derivative layer in two or more dimensions when a roll is needed (roll_without_axis_refuted) and the accuracy guarantee for overdetermined requests (overdetermined_layer_refuted). SVD and solve are parameters with their defining equations as hypotheses."
  },
  {
   "property": "C47",
   "status": "proved",
   "theorems": [
    "spectral_filter_spec",
    "spectral_filter_energy",
    "filtered_forcing_spec",
    "elementary_forcings",
    "sum_forcings_pointwise",
    "kolmogorov_forcing_spec",
    "kolmogorov_forcing_dimensions",
    "kolmogorov_forcing_divergence_free",
    "kolmogorov_forcing_total",
    "kolmogorov_offsets_honoured_refuted",
    "simple_turbulence_kolmogorov",
    "taylor_green_velocity_spec",
    "taylor_green_forcing_spec",
    "taylor_green_forcing_divergence",
    "taylor_green_forcing_divergence_free_refuted",
    "taylor_green_exact_solution",
    "taylor_green_incompressible_refuted",
    "taylor_green_decay_refuted"
   ],
   "note": ""
  },
  {
   "property": "C48",
   "status": "proved",
   "theorems": [
    "evm_model_spec",
    "evm_model_momentum",
    "evm_constant_viscosity",
    "evm_dissipation",
    "smagorinsky_viscosity_spec",
    "smagorinsky_rejects",
    "smagorinsky_dissipates",
    "explicit_smagorinsky_step",
    "implicit_smagorinsky_solve",
    "implicit_smagorinsky_step"
   ],
   "note": ""
  },
  {
   "property": "C49",
   "status": "proved",
   "theorems": [
    "explicit_terms_combination",
    "explicit_terms_momentum",
    "misplaced_force_rejected",
    "semi_implicit_conserves_momentum",
    "semi_implicit_divergence_free",
    "default_pressure_solver",
    "sum_fields_pointwise",
    "sum_fields_rejects_mismatch",
    "ns_time_step_stable",
    "dynamic_time_step_cfl",
    "implicit_step_equation",
    "implicit_step_conserves_momentum",
    "implicit_step_divergence_free",
    "default_diffusion_solver",
    "implicit_kinematic_viscosity_refuted"
   ],
   "note": ""
  },
  {
   "property": "C50",
   "status": "proved",
   "theorems": [
    "collocated_advect_spec",
    "collocated_convect_spec",
    "collocated_diffuse_spec",
    "collocated_projection",
    "collocated_solve_cg",
    "collocated_step",
    "collocated_projection_misplaced",
    "collocated_chequerboard_invisible"
   ],
   "note": ""
  },
  {
   "property": "C51",
   "status": "proved",
   "theorems": [
    "neighbours_satisfy_walls",
    "differences_with_walls",
    "laplacian_with_walls"
   ],
   "note": ""
  },
  {
   "property": "C52",
   "status": "proved",
   "theorems": [
    "projection_in_box"
   ],
   "note": ""
  },
  {
   "property": "C53",
   "status": "proved",
   "theorems": [
    "box_divergence_total"
   ],
   "note": ""
  },
  {
   "property": "C54",
   "status": "proved",
   "theorems": [
    "van_leer_implementations_agree",
    "van_leer_staggered_refuted"
   ],
   "note": "Proved on the offsets named in the statement; van_leer_staggered_refuted proves that the agreement fails at the staggered offset (1, 1/2)."
  },
  {
   "property": "C55",
   "status": "proved",
   "theorems": [
    "linear_advection_energy",
    "convection_conserves_energy"
   ],
   "note": ""
  },
  {
   "property": "C56",
   "status": "proved",
   "theorems": [
    "fast_diag_pressure_solves_poisson",
    "projection_with_fast_diag",
    "channel_flow_solver_is_matmul",
    "projection_with_cg"
   ],
   "note": ""
  },
  {
   "property": "C57",
   "status": "proved",
   "theorems": [
    "projection_fixes_divergence_free",
    "projection_pythagoras",
    "fast_diag_projection_idempotent",
    "pressure_unique_up_to_constant"
   ],
   "note": ""
  },
  {
   "property": "C58",
   "status": "proved",
   "theorems": [
    "dealiased_product_exact",
    "ks_explicit_exact",
    "burgers_advection_is_ks",
    "ks_nonlinearity_conserves"
   ],
   "note": ""
  },
  {
   "property": "C59",
   "status": "proved",
   "theorems": [
    "wrap_variables_periodic",
    "initial_velocity_samples",
    "initial_velocity_projected",
    "filtered_velocity_field_spec",
    "filtered_velocity_field_1d",
    "collocated_filtered_velocity_field_spec",
    "log_normal_mode"
   ],
   "note": ""
  },
  {
   "property": "C60",
   "status": "proved",
   "theorems": [
    "kinetic_energy_spec",
    "fourier_transform_spec",
    "energy_spectrum_parseval",
    "trajectory_to_xarray_spec",
    "trajectory_two_scalars",
    "trajectory_missing_component_refuted",
    "vorticity_2d_is_curl",
    "autocorrelation_spec",
    "autocorrelation_labels_refuted",
    "autocorrelation_half_refuted",
    "binsum_shells",
    "binsum_shell_count",
    "binsum_resolved_refuted"
   ],
   "note": ""
  },
  {
   "property": "C61",
   "status": "proved",
   "theorems": [
    "state_correlation_bounds",
    "state_correlation_perfect",
    "correlation_single_step_bounds",
    "correlation_of_multiple",
    "correlation_per_sample_refuted",
    "l2_single_step_value",
    "l2_cumulative_value",
    "l2_cumulative_sums_steps",
    "l2_zero_iff_equal",
    "streaming_mean_value",
    "temporal_autocorrelation_value"
   ],
   "note": ""
  },
  {
   "property": "C62",
   "status": "proved",
   "theorems": [
    "stack_split_channels",
    "flux_corrector_conserves",
    "velocity_corrector_channels",
    "learned_advection_conserves",
    "modular_semi_implicit",
    "modular_implicit",
    "learned_correctors_keep_momentum",
    "learned_corrector_divergence_refuted",
    "neighbor_channels"
   ],
   "note": ""
  },
  {
   "property": "C63",
   "status": "proved",
   "theorems": [
    "rollout_frames",
    "rollout_restart",
    "rollout_subsampling",
    "decoded_rollout",
    "euler_integrator_frames",
    "euler_integrator_linear",
    "aligned_encoder_last_frame",
    "collocated_round_trip",
    "collocated_round_trip_identity_refuted",
    "slice_last_state_encoder_spec",
    "slice_last_n_state_encoder_spec",
    "slice_last_n_other_axis_refuted",
    "stack_last_n_state_encoder_spec",
    "slice_encoders_refuse",
    "time_derivative_network_step",
    "input_noise",
    "train_loop_order",
    "train_loop_resume",
    "preprocess_order",
    "slice_last_n_any_axis",
    "stack_last_n_one_array"
   ],
   "note": ""
  },
  {
   "property": "C64",
   "status": "proved",
   "theorems": [
    "advection_of_copies",
    "convection_treats_copies_alike",
    "projection_of_copies",
    "semi_implicit_of_copies",
    "implicit_diffusion_of_copies",
    "solver_does_not_matter",
    "solution_moves_with_the_data"
   ],
   "note": ""
  },
  {
   "property": "C65",
   "status": "proved",
   "theorems": [
    "ns2d_mean_vorticity",
    "ns2d_conserves",
    "single_wave_length_is_steady",
    "steppers_respect_linear_relations",
    "linear_run_powers",
    "amplification_factors",
    "damped_modes_never_grow",
    "ns2d_runs_mean",
    "single_wave_length_runs",
    "ns2d_smooth_false_refuted",
    "ns2d_odd_columns_refuted",
    "brick_wall_not_a_projection_refuted",
    "ns2d_forcing_adds_curl",
    "laminar_kolmogorov_flow",
    "kolmogorov_relaxation",
    "laminar_kolmogorov_stays",
    "spectral_schemes_order",
    "forced_implicit_solve"
   ],
   "note": ""
  },
  {
   "property": "C66",
   "status": "proved",
   "theorems": [
    "nls_conserves",
    "nls_symmetries",
    "nls_plane_wave"
   ],
   "note": ""
  },
  {
   "property": "C67",
   "status": "proved",
   "theorems": [
    "ks_symmetries",
    "ks_mean_constant",
    "burgers_clock",
    "burgers_translations",
    "burgers_mean_constant",
    "ks_odd_points_refuted",
    "ks_one_cell_shift_refuted"
   ],
   "note": ""
  },
  {
   "property": "C68",
   "status": "proved",
   "theorems": [
    "learned_scalar_viscosity_spec",
    "learned_viscosity_from_gradients_spec",
    "learned_tensor_viscosity_spec",
    "learned_eddy_viscosity",
    "implicit_evm_solve",
    "implicit_learned_viscosity",
    "modular_learned_viscosity",
    "smagorinsky_eddy_viscosity"
   ],
   "note": ""
  },
  {
   "property": "C69",
   "status": "proved",
   "theorems": [
    "gradient_tensor_spec",
    "gradient_trace",
    "gradient_antisymmetric_part",
    "gradient_tensor_offsets",
    "gradient_tensor_corner_refuted"
   ],
   "note": ""
  },
  {
   "property": "C70",
   "status": "proved",
   "theorems": [
    "spectral_vorticity_round_trip",
    "vorticity_encoder_is_curl",
    "vorticity_round_trip",
    "spectral_decode_encode",
    "vorticity_decoder_odd_axis_refuted",
    "spectral_downsampling_samples",
    "spectral_downsampling_two_factors_refuted",
    "spectral_downsampling_odd_refuted"
   ],
   "note": ""
  },
  {
   "property": "C71",
   "status": "proved",
   "theorems": [
    "learned_interpolation_averages",
    "learned_interpolation_keeps_constants",
    "untrained_interpolation_is_linear",
    "learned_same_offset_refuted",
    "learned_unknown_target_refused",
    "one_cell_interpolation_refused",
    "learned_stencil_sizes",
    "individual_interpolation_averages"
   ],
   "note": ""
  },
  {
   "property": "C72",
   "status": "proved",
   "theorems": [
    "conv_layer_exact",
    "tower_moves_along",
    "uniform_stays_uniform",
    "conflicting_lengths_refused",
    "strided_layout_refuted",
    "rescale_range",
    "scalings_are_plain",
    "standard_tower_keeps_grid",
    "residual_tower_moves_along",
    "residual_connection_adds",
    "mlp_tower_is_local",
    "mlp_tower_moves_along",
    "towers_are_any_networks"
   ],
   "note": ""
  },
  {
   "property": "C73",
   "status": "proved",
   "theorems": [
    "transpose_layer_exact",
    "transpose_is_conv_of_spread",
    "transpose_moves_along",
    "transpose_is_adjoint",
    "unit_stride_transpose",
    "wide_transpose_refused",
    "transpose_refusals"
   ],
   "note": ""
  },
  {
   "property": "C74",
   "status": "proved",
   "theorems": [
    "mirror_conv_displaced",
    "mirror_conv_pointwise",
    "mirror_conv_identity_refuted"
   ],
   "note": ""
  },
  {
   "property": "C75",
   "status": "proved",
   "theorems": [
    "point_interpolation_linear",
    "point_continuation_exists",
    "point_interpolation_nearest",
    "point_interpolation_at_node",
    "point_interpolation_affine",
    "point_interpolation_bounded",
    "point_interpolation_wrap_periodic",
    "point_interpolation_wrap_nearest_refuted",
    "point_interpolation_clamped",
    "point_interpolation_agrees",
    "point_interpolation_refuses"
   ],
   "note": ""
  },
  {
   "property": "C76",
   "status": "proved",
   "theorems": [
    "learned_convection_flux_form",
    "learned_convection_no_net_force",
    "learned_solver_step",
    "learned_solver_run",
    "learned_convection_translates",
    "learned_solver_translates"
   ],
   "note": ""
  },
  {
   "property": "C77",
   "status": "proved",
   "theorems": [
    "advection_of_mirror_images",
    "projection_of_mirror_images",
    "convection_of_mirror_images",
    "semi_implicit_of_mirror_images",
    "implicit_diffusion_of_mirror_images",
    "symmetric_flow_stays_symmetric"
   ],
   "note": ""
  },
  {
   "property": "C78",
   "status": "proved",
   "theorems": [
    "limited_any_base_spec",
    "limited_any_base_faces",
    "limited_any_base_bounded",
    "limited_modular_advection",
    "limiter_bounds_any_base_refuted",
    "limiter_flat_face_refuted",
    "limited_learned_advection"
   ],
   "note": ""
  },
  {
   "property": "C79",
   "status": "proved",
   "theorems": [
    "ns2d_runs_commute_with_translations",
    "ns2d_runs_commute_with_half_turns",
    "kolmogorov_flow_symmetries"
   ],
   "note": ""
  },
  {
   "property": "C80",
   "status": "proved",
   "theorems": [
    "difference_quotients_second_order",
    "laplacian_second_order",
    "linear_interpolation_second_order",
    "advection_second_order",
    "divergence_second_order",
    "convection_second_order",
    "navier_stokes_terms_second_order",
    "upwind_first_order"
   ],
   "note": ""
  },
  {
   "property": "C81",
   "status": "proved",
   "theorems": [
    "explicit_diffusion_converges",
    "upwind_transport_converges",
    "implicit_diffusion_converges"
   ],
   "note": ""
  },
  {
   "property": "C82",
   "status": "proved",
   "theorems": [
    "channels_split_decoder_spec",
    "latent_codec_roundtrip",
    "aligned_latent_codec",
    "aligned_latent_encoder_keeps_channels_refuted",
    "corrector_w_boundaries",
    "corrector_w_boundaries_default_refuted"
   ],
   "note": ""
  },
  {
   "property": "C83",
   "status": "proved",
   "theorems": [
    "correlation_metric_zero_iff",
    "energy_spectrum_metric_zero_iff",
    "energy_spectrum_metric_catches_modes_refuted",
    "distributed_mean_is_global_mean",
    "distributed_mean_uneven_refuted"
   ],
   "note": ""
  },
  {
   "property": "C84",
   "status": "proved",
   "theorems": [
    "isotropize_interpolation_bounds",
    "isotropize_interpolation_exact",
    "isotropic_energy_spectrum_defined",
    "isotropize_dispatch",
    "grid_from_attrs_spec"
   ],
   "note": ""
  },
  {
   "property": "C85",
   "status": "proved",
   "theorems": [
    "open_pressure_solves_poisson",
    "open_pressure_mean_deficit",
    "open_pressure_unique",
    "fast_diag_any_pressure_bc_refuted"
   ],
   "note": ""
  },
  {
   "property": "C86",
   "status": "proved",
   "theorems": [
    "lax_wendroff_flux_form",
    "lax_wendroff_uniform_step",
    "lax_wendroff_energy",
    "lax_wendroff_exact_shift",
    "lax_wendroff_converges",
    "lax_wendroff_monotone_refuted"
   ],
   "note": ""
  },
  {
   "property": "C87",
   "status": "proved",
   "theorems": [
    "forward_euler_energy",
    "rk_energy",
    "rk4_energy_stable",
    "implicit_energy",
    "centred_advection_rk4_stable",
    "centred_advection_euler_grows",
    "euler_step_energy",
    "euler_linear_energy",
    "inviscid_euler_gains"
   ],
   "note": ""
  },
  {
   "property": "C88",
   "status": "proved",
   "theorems": [
    "consistent_bc_characterised",
    "pressure_bc_characterised",
    "all_periodic_characterised",
    "mixed_boundary_unnoticed_refuted",
    "consistent_bc_proper"
   ],
   "note": ""
  },
  {
   "property": "C89",
   "status": "proved",
   "theorems": [
    "average_value",
    "summary_values",
    "summary_missing",
    "error_metric",
    "error_triangle",
    "error_bounds_means",
    "threshold_fraction"
   ],
   "note": ""
  },
  {
   "property": "C90",
   "status": "proved",
   "theorems": [
    "interior_masks",
    "interior_masks_sound",
    "interior_masks_complete_refuted",
    "interior_grid_points",
    "interior_grid_empty"
   ],
   "note": ""
  },
  {
   "property": "C91",
   "status": "proved",
   "theorems": [
    "uniform_boundaries",
    "mixed_boundaries",
    "channel_flow_one_dim",
    "channel_flow_ghosts",
    "boundary_values",
    "periodic_values_none_refuted",
    "placed_arrays"
   ],
   "note": ""
  },
  {
   "property": "C92",
   "status": "proved",
   "theorems": [
    "filtered_step",
    "filter_needs_square",
    "filtered_runs",
    "filter_has_no_step_limit"
   ],
   "note": ""
  },
  {
   "property": "C93",
   "status": "proved",
   "theorems": [
    "scale_keeps_walls",
    "scalings_compose",
    "scaling_is_undone",
    "fixed_scale_linear"
   ],
   "note": ""
  },
  {
   "property": "C94",
   "status": "proved",
   "theorems": [
    "velocity_correlation_values",
    "velocity_correlation_moved",
    "velocity_correlation_peak"
   ],
   "note": ""
  },
  {
   "property": "C95",
   "status": "proved",
   "theorems": [
    "non_periodic_conv_exact",
    "non_periodic_conv_local"
   ],
   "note": ""
  },
  {
   "property": "C96",
   "status": "proved",
   "theorems": [
    "evaluation_means",
    "evaluation_zero_iff_perfect",
    "loss_and_gradient_correct",
    "gradient_step_descends"
   ],
   "note": ""
  },
  {
   "property": "C97",
   "status": "proved",
   "theorems": [
    "random_forcing_bounds",
    "random_forcing_no_net_force",
    "random_forcing_coarse_refuted",
    "random_forcing_one_axis"
   ],
   "note": ""
  },
  {
   "property": "C98",
   "status": "proved",
   "theorems": [
    "vorticity_space_forcing_is_curl"
   ],
   "note": ""
  },
  {
   "property": "C99",
   "status": "proved",
   "theorems": [
    "quantile_divides",
    "approximate_quantiles_first_time",
    "colour_scale_covers"
   ],
   "note": ""
  }
 ]
}