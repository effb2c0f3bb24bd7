# Print Assumptions of every theorem (generated by tools/assumptions.py)

All axioms that occur, all from Coq's standard library:

* `ClassicalDedekindReals.sig_forall_dec`
* `ClassicalDedekindReals.sig_not_dec`
* `Classical_Prop.classic`
* `FunctionalExtensionality.functional_extensionality_dep`

## Closed under the global context (no axiom) (87 theorems)

* C07_safe_sizes (PropCheb.v)
* C08_safe_sizes (PropCheb.v)
* C15_modes_agree (PropLinalg.v)
* C15_small_sizes_panic (PropLinalg.v)
* C17_c2c_wrong_lengths_panic (PropLen.v)
* C17_chebyshev_wrong_lengths_panic (PropLen.v)
* C17_r2c_wrong_lengths_panic (PropLen.v)
* C25_line_elements (PropAxis.v)
* C25_lines_determine_array (PropAxis.v)
* C26_every_schedule_terminates (PropAxis.v)
* C26_lanes_are_disjoint (PropAxis.v)
* C27_allocating_mismatch_panics (PropAxis.v)
* C27_mismatch_panics_before_any_write (PropAxis.v)
* C27_par_mismatch_panics_before_any_write (PropAxis.v)
* C31_space3_gradient_correct_for_like_bases (PropSpace4.v)
* C31_space3_gradient_ignores_third_base (PropSpace4.v)
* C32_exponent_wraps (PropSpace4.v)
* C33_distribution (PropMpi.v)
* C34_debug_panics (PropMpi.v)
* C34_release_table (PropMpi.v)
* C34_release_transpose_panics (PropMpi.v)
* C35_counts_match (PropMpi.v)
* C35_there_and_back (PropMpi.v)
* C35_transpose_x_to_y (PropMpi.v)
* C35_transpose_y_to_x (PropMpi.v)
* C36_all_gather (PropMpi2.v)
* C36_gather (PropMpi2.v)
* C36_gather_after_scatter (PropMpi2.v)
* C36_scatter (PropMpi2.v)
* C36_split_array (PropMpi2.v)
* C36_split_array_inplace (PropMpi4.v)
* C37_gather_output_checked (PropMpi2.v)
* C37_root_checked (PropMpi2.v)
* C37_wrong_shape_panics (PropMpi2.v)
* C38_duplicates (PropHandler.v)
* C38_lookup (PropHandler.v)
* C38_one_entry_per_insert (PropHandler.v)
* C41_all_gather_sum (PropMpi2.v)
* C41_broadcast (PropMpi2.v)
* C41_gather_sum (PropMpi2.v)
* C45_lin_elements (PropAxis.v)
* C46_gather_counts (PropMpi3.v)
* C46_too_large_panics (PropMpi3.v)
* C46_transpose_counts (PropMpi3.v)
* C49_space_axis_selects_base (PropElements.v)
* C53_allocating_methods_act_on_every_line (PropAny.v)
* C53_allocating_par_equals_serial (PropAny.v)
* C53_chebyshev_slices (PropAny.v)
* C53_composite_slices (PropAny.v)
* C53_constructor_returns (PropAny3.v)
* C53_constructors (PropAny.v)
* C53_distributed_backward (PropAny3.v)
* C53_distributed_forward (PropAny3.v)
* C53_distributed_from_ortho (PropAny3.v)
* C53_distributed_to_ortho (PropAny3.v)
* C53_documented_libraries (PropAny.v)
* C53_every_lookup_is_registered (PropAny3.v)
* C53_fitting_arguments_never_panic_for_size (PropAny.v)
* C53_fnop_meaning (PropAny.v)
* C53_fourier_slices (PropAny.v)
* C53_implementation_exists (PropAny.v)
* C53_inplace_equals_allocating (PropAny.v)
* C53_inplace_methods_act_on_every_line (PropAny.v)
* C53_inplace_par_equals_serial (PropAny.v)
* C53_result_independent_of_previous_output (PropAny.v)
* C53_space1_applies_each_base_along_its_axis (PropAny2.v)
* C53_space1_gradient (PropAny2.v)
* C53_space1_par_equals_serial (PropSpace6.v)
* C53_space1_rejects_wrong_shapes (PropAny2.v)
* C53_space2_applies_each_base_along_its_axis (PropAny2.v)
* C53_space2_gradient (PropAny2.v)
* C53_space2_par_equals_serial (PropAny2.v)
* C53_space2_rejects_wrong_shapes (PropAny2.v)
* C53_space3_applies_each_base_along_its_axis (PropAny2.v)
* C53_space3_gradient (PropGrad.v)
* C53_space3_par_equals_serial (PropAny2.v)
* C53_space3_rejects_wrong_shapes (PropAny2.v)
* C61_the_assertion_compares_shape_and_elements (PropExample3.v)
* C62_a_field_asks_the_base_of_the_axis (PropField2.v)
* C62_a_new_field_follows_the_axes (PropField3.v)
* C62_field_methods_are_the_serial_ones (PropField.v)
* C62_ingredients_panic_on_every_chebyshev_axis (PropField2.v)
* C62_main (PropField2.v)
* C64_exact_sizes (PropMat.v)
* C36_collectives_write_only_their_receive_blocks (PropMpiSem.v)
* C36_sent_blocks_lie_inside_the_send_buffer (PropMpiSem.v)
* C71_programs_of_serial_and_parallel_calls_have_one_outcome (PropParProgram.v)

## `ClassicalDedekindReals.sig_forall_dec` (1 theorems)

* C41_real_sum (PropMpi2.v)

## `FunctionalExtensionality.functional_extensionality_dep` (7 theorems)

* C53_distributed_gradient (PropAny3.v)
* C61_mpi_examples_run_to_completion (PropExample.v)
* C70_coefs_program (PropProgram2.v)
* C70_gathered_data_do_not_depend_on_the_number_of_ranks (PropProgram.v)
* C70_mpi_programs_behave_like_serial_programs (PropProgram.v)
* C70_ortho_program (PropProgram2.v)
* C70_values_program (PropProgram2.v)

## `ClassicalDedekindReals.sig_forall_dec`, `FunctionalExtensionality.functional_extensionality_dep` (76 theorems)

* C05_cheb_gradient_composes (PropCheb.v)
* C05_cheb_gradient_is_derivative (PropCheb.v)
* C05_compo_gradient_is_derivative (PropCompo.v)
* C06_cheb_diffmat4_release_wrong (PropCheb.v)
* C06_cheb_diffmat_is_gradient (PropCheb.v)
* C06_cheb_laplacian_is_second_derivative (PropCheb.v)
* C07_diffmat3_debug_panics (PropCheb.v)
* C07_diffmat4_debug_panics (PropCheb.v)
* C07_diffmat_returns_on_safe_sizes (PropCheb.v)
* C07_other_orders_panic (PropCheb.v)
* C08_base_diffmat_pinv (PropElements6.v)
* C08_cheb_diffmat_pinv (PropCheb.v)
* C08_cheb_diffmat_pinv_small_panics (PropCheb.v)
* C08_other_orders_panic (PropCheb.v)
* C08_pinv_debug_panics_large (PropCheb.v)
* C08_pinv_release_wrong_large (PropCheb.v)
* C08_pinv_undoes_gradient (PropCheb.v)
* C09_biharmonic_to_ortho_UB (PropCompo.v)
* C09_to_ortho_is_stencil (PropCompo.v)
* C10_stencil_boundary_conditions (PropCompo.v)
* C10_to_ortho_boundary_conditions (PropCompo.v)
* C11_from_ortho_least_squares (PropCompo.v)
* C12_biharmonic_UB (PropCompo.v)
* C12_from_ortho_of_stencil (PropCompo.v)
* C12_from_ortho_of_to_ortho (PropCompo.v)
* C13_dirichlet_inverse (PropMat3.v)
* C13_neumann_inverse (PropMat3.v)
* C13_stencil_inv_left_inverse (PropCompo.v)
* C14_differ_off_range (PropCompo.v)
* C14_same_on_range (PropCompo.v)
* C15_diag_dominant_suffices (PropLinalg.v)
* C15_pdma2_solves (PropLinalg.v)
* C15_pdma_solves (PropLinalg.v)
* C15_pos_def_suffices (PropLinalg.v)
* C15_solution_unique (PropLinalg.v)
* C15_tdma_solves (PropLinalg.v)
* C16_cheb_gradient_out_of_bounds_iff (PropCompo.v)
* C16_from_ortho_no_UB (PropCompo.v)
* C16_to_ortho_gradient_no_UB (PropCompo.v)
* C17_from_ortho_slice_short_input_UB (PropCompo.v)
* C17_to_ortho_slice_long_output_UB (PropCompo.v)
* C22_diffmat_panics (PropFourier.v)
* C22_r2c_diffmat_is_gradient (PropFourier.v)
* C23_c2c_gradient_loses_mode (PropFourier.v)
* C23_c2c_gradient_right_iff (PropFourier.v)
* C24_c2c_pinv (PropFourier.v)
* C24_laplacian_is_diffmat2 (PropFourier.v)
* C24_r2c_pinv (PropFourier.v)
* C32_scale_divides_by_the_wrapped_power (PropSpace7.v)
* C32_scaled_gradient_is_divided_by_the_product_of_powers (PropSpace4.v)
* C42_approx_eq (PropUtils.v)
* C42_approx_eq_complex (PropUtils.v)
* C42_ndarray (PropUtils.v)
* C42_not_a_closeness_test (PropUtils.v)
* C44_constructible_but_from_ortho_panics (PropCompo.v)
* C44_constructible_sizes (PropCompo.v)
* C54_c2c_gradient (PropRound3.v)
* C54_dirichlet_boundary (PropRound.v)
* C54_dirichlet_from_ortho (PropRound.v)
* C54_dirichlet_neumann_to_ortho (PropDN.v)
* C54_dirichlet_no_overflow (PropRound2.v)
* C54_dirichlet_round_trip (PropRound.v)
* C54_dirichlet_to_ortho (PropRound.v)
* C54_gradient (PropRound2.v)
* C54_neumann_boundary (PropRound4.v)
* C54_neumann_from_ortho (PropRound4.v)
* C54_neumann_no_overflow (PropRound4.v)
* C54_neumann_round_trip (PropRound4.v)
* C54_neumann_to_ortho (PropRound4.v)
* C54_r2c_gradient (PropRound3.v)
* C54_tdma_backward_error (PropRound.v)
* C58_dirichlet_neumann_functions (PropDN.v)
* C59_c2c_right_iff (PropC2c.v)
* C60_dirichlet_neumann_map (PropDN.v)
* C60_exact_maps (PropOrtho.v)
* C62_dx_is_the_trapezoidal_rule (PropField.v)

## `ClassicalDedekindReals.sig_forall_dec`, `ClassicalDedekindReals.sig_not_dec`, `FunctionalExtensionality.functional_extensionality_dep` (144 theorems)

* C01_cheb_forward_of_backward (PropCheb.v)
* C02_cheb_backward_of_forward (PropCheb.v)
* C03_T_is_cos (PropCheb.v)
* C03_cheb_backward_evaluates (PropCheb.v)
* C03_cheb_forward_interpolates (PropCheb.v)
* C04_cheb_coords (PropCheb.v)
* C04_compo_coords (PropCheb.v)
* C06_base_diffmat_is_gradient (PropElements6.v)
* C16_backward_no_UB (PropCompo.v)
* C16_biharmonic_out_of_bounds (PropCompo.v)
* C16_forward_no_UB (PropCompo.v)
* C17_orthogonal_slices_never_UB (PropCompo.v)
* C18_forward_of_backward (PropCompo.v)
* C18_projection (PropCompo.v)
* C19_r2c_backward_of_forward (PropFourier.v)
* C20_r2c_forward_of_backward (PropFourier.v)
* C20_r2c_identity_iff_real (PropFourier.v)
* C21_c2c_backward_of_forward (PropFourier.v)
* C21_c2c_forward_of_backward (PropFourier.v)
* C22_r2c_gradient_is_derivative (PropFourier.v)
* C23_c2c_diffmat_is_derivative (PropFourier.v)
* C25_allocating_methods_act_on_every_line (PropAxis.v)
* C25_inplace_methods_act_on_every_line (PropAxis.v)
* C26_allocating_par_equals_serial (PropAxis.v)
* C26_implementation_exists (PropAxis.v)
* C26_inplace_par_equals_serial (PropAxis.v)
* C27_fitting_arguments_never_panic_for_size (PropAxis.v)
* C28_inplace_equals_allocating (PropAxis.v)
* C28_result_independent_of_previous_output (PropAxis.v)
* C29_one_dimensional_roundtrips (PropSpace.v)
* C29_space1_applies_each_base_along_its_axis (PropSpace.v)
* C29_space1_forward_backward_forward (PropSpace2.v)
* C29_space1_ortho_roundtrip (PropSpace3.v)
* C29_space1_par_equals_serial (PropSpace6.v)
* C29_space1_physical_roundtrip (PropSpace.v)
* C29_space1_rejects_wrong_shapes (PropSpace.v)
* C29_space1_spectral_roundtrip (PropSpace.v)
* C29_space1_zero_field (PropSpace6.v)
* C29_space2_any_axis_order (PropSpace3.v)
* C29_space2_applies_each_base_along_its_axis (PropSpace.v)
* C29_space2_forward_backward_forward (PropSpace2.v)
* C29_space2_ortho_roundtrip (PropSpace3.v)
* C29_space2_par_equals_serial (PropSpace3.v)
* C29_space2_physical_roundtrip (PropSpace.v)
* C29_space2_rejects_wrong_shapes (PropSpace.v)
* C29_space2_spectral_roundtrip (PropSpace.v)
* C29_space2_transforms_any_axis_order (PropSpace3.v)
* C29_space2_zero_field (PropSpace6.v)
* C30_space3_any_axis_order (PropSpace3.v)
* C30_space3_applies_each_base_along_its_axis (PropSpace.v)
* C30_space3_forward_backward_forward (PropSpace2.v)
* C30_space3_ortho_roundtrip (PropSpace3.v)
* C30_space3_par_equals_serial (PropSpace3.v)
* C30_space3_physical_roundtrip (PropSpace.v)
* C30_space3_rejects_wrong_shapes (PropSpace.v)
* C30_space3_spectral_roundtrip (PropSpace.v)
* C30_space3_transforms_any_axis_order (PropSpace3.v)
* C30_space3_zero_field (PropSpace6.v)
* C31_defined_derivatives (PropSpace4.v)
* C31_space1_gradient (PropSpace4.v)
* C31_space2_gradient_any_axis_order (PropSpace4.v)
* C31_space2_gradient_applies_each_base_along_its_axis (PropSpace4.v)
* C31_space3_gradient_unusable_for_unequal_extents (PropSpace4.v)
* C31_space3_gradient_uses_second_base_on_third_axis (PropSpace4.v)
* C31_space3_gradient_wrong_values (PropSpace4.v)
* C31_space3_intended_gradient_is_total (PropSpace4.v)
* C32_fourier_space1_derivative_in_stretched_coordinate (PropSpace5.v)
* C32_fourier_space2_mixed_derivative_in_stretched_coordinates (PropSpace4.v)
* C32_fourier_space3_mixed_derivative_in_stretched_coordinates (PropSpace5.v)
* C32_space1_derivative_in_stretched_coordinate (PropSpace4.v)
* C32_space2_mixed_derivative_in_stretched_coordinates (PropSpace4.v)
* C32_space3_mixed_derivative_in_stretched_coordinates (PropSpace5.v)
* C39_constructor_returns (PropHandler.v)
* C39_every_lookup_is_registered (PropHandler.v)
* C40_backward (PropSpaceMpi.v)
* C40_forward (PropSpaceMpi.v)
* C40_from_ortho (PropSpaceMpi.v)
* C40_gradient (PropSpaceMpi.v)
* C40_to_ortho (PropSpaceMpi.v)
* C43_exact_coords (PropFourier.v)
* C44_usable (PropCompo.v)
* C45_axis_methods_linear (PropAxis.v)
* C45_slice_methods_linear (PropAxis.v)
* C47_c2c_backward_evaluates (PropFourier.v)
* C47_c2c_forward_interpolates (PropFourier.v)
* C47_r2c_backward_evaluates (PropFourier.v)
* C47_r2c_backward_of_gradient (PropFourier.v)
* C47_r2c_forward_interpolates (PropFourier.v)
* C48_all_gather_phys (PropSpaceMpi2.v)
* C48_all_gather_spec (PropSpaceMpi2.v)
* C48_gather_phys (PropSpaceMpi2.v)
* C48_gather_spec (PropSpaceMpi2.v)
* C48_pencil_shapes (PropSpaceMpi2.v)
* C48_scatter_phys (PropSpaceMpi2.v)
* C48_scatter_spec (PropSpaceMpi2.v)
* C48_transpose_phys (PropSpaceMpi2.v)
* C48_transpose_spec (PropSpaceMpi2.v)
* C49_base_accessors (PropElements.v)
* C49_base_kind_names (PropDisplay.v)
* C49_space_coords (PropElements.v)
* C50_space1_to_ortho_is_stencil (PropElements.v)
* C50_space2_to_ortho_is_stencil (PropElements.v)
* C50_space3_to_ortho_is_stencil (PropElements.v)
* C51_chebyshev_laplacian (PropElements2.v)
* C51_fourier_laplacian (PropElements2.v)
* C51_laplacian_pinv (PropElements2.v)
* C51_pinv_solves (PropElements2.v)
* C51_space1_laplacian_is_gradient (PropElements2.v)
* C51_space2_laplacian_is_gradient (PropElements2.v)
* C51_space3_laplacian_is_gradient (PropElements8.v)
* C52_every_base_represents_functions (PropElements3.v)
* C52_fourier_space1_derivatives_on_the_grid (PropElements7.v)
* C52_fourier_space2_derivatives_on_the_grid (PropElements5.v)
* C52_fourier_space3_derivatives_on_the_grid (PropElements7.v)
* C52_space1_backward_evaluates (PropElements3.v)
* C52_space1_derivatives_on_the_grid (PropElements7.v)
* C52_space1_forward_interpolates (PropElements5.v)
* C52_space2_backward_evaluates (PropElements3.v)
* C52_space2_backward_is_the_chebyshev_series (PropElements4.v)
* C52_space2_derivatives_on_the_grid (PropElements5.v)
* C52_space2_forward_interpolates (PropElements5.v)
* C52_space3_backward_evaluates (PropElements3.v)
* C52_space3_derivatives_on_the_grid (PropElements7.v)
* C52_space3_forward_interpolates (PropElements5.v)
* C55_c2c_backward (PropTrans.v)
* C55_c2c_backward_of_forward (PropTrans.v)
* C55_c2c_forward_of_backward (PropTrans.v)
* C55_cheb_backward (PropTrans.v)
* C55_cheb_backward_of_forward (PropTrans.v)
* C55_cheb_forward (PropTrans.v)
* C55_cheb_forward_of_backward (PropTrans.v)
* C55_dirichlet_backward (PropTrans.v)
* C55_dirichlet_forward (PropTrans.v)
* C55_dirichlet_forward_of_backward (PropTrans.v)
* C55_dirichlet_neumann_backward (PropDN.v)
* C55_neumann_backward (PropTrans.v)
* C55_neumann_forward (PropTrans.v)
* C55_neumann_forward_of_backward (PropTrans.v)
* C55_r2c_backward (PropTrans.v)
* C55_r2c_backward_of_forward (PropTrans.v)
* C55_r2c_forward_of_backward (PropTrans.v)
* C59_exact_maps_are_derivatives (PropGrad.v)
* C62_cells_of_a_field (PropField.v)
* C62_ingredients_fourier (PropField2.v)

## `ClassicalDedekindReals.sig_forall_dec`, `ClassicalDedekindReals.sig_not_dec`, `Classical_Prop.classic`, `FunctionalExtensionality.functional_extensionality_dep` (192 theorems)

* C42_f64 (PropUtils.v)
* C42_f64_accepts (PropUtils.v)
* C42_f64_sound (PropUtils.v)
* C43_f64_extra_point_iff (PropF64.v)
* C43_f64_length (PropF64.v)
* C43_f64_power_of_two (PropF64.v)
* C43_f64_scale (PropF64.v)
* C43_f64_wrong_sizes (PropF64.v)
* C53_f64 (PropAny.v)
* C54_f32_dirichlet_round_trip (PropRound2.v)
* C54_f32_neumann_round_trip (PropRound4.v)
* C54_f64_dirichlet_round_trip (PropRound2.v)
* C54_f64_fourier_gradient (PropRound3.v)
* C54_f64_gradient (PropRound2.v)
* C54_f64_gradient_complex (PropRound2.v)
* C54_f64_neumann_round_trip (PropRound4.v)
* C55_accurate_f32_libraries_exist (PropTrans6.v)
* C55_accurate_libraries_exist (PropTrans2.v)
* C55_f32_c2c_backward_of_forward (PropTrans6.v)
* C55_f32_c2c_forward_of_backward (PropTrans6.v)
* C55_f32_cheb_backward_of_forward (PropTrans6.v)
* C55_f32_cheb_forward_of_backward (PropTrans6.v)
* C55_f32_dirichlet_forward_of_backward (PropTrans6.v)
* C55_f32_neumann_forward_of_backward (PropTrans6.v)
* C55_f32_r2c_backward_of_forward (PropTrans6.v)
* C55_f32_r2c_forward_of_backward (PropTrans6.v)
* C55_f64_c2c_backward_of_forward (PropTrans2.v)
* C55_f64_c2c_forward_of_backward (PropTrans2.v)
* C55_f64_cheb_backward_of_forward (PropTrans2.v)
* C55_f64_cheb_forward_of_backward (PropTrans2.v)
* C55_f64_dirichlet_forward_of_backward (PropTrans2.v)
* C55_f64_neumann_forward_of_backward (PropTrans2.v)
* C55_f64_r2c_backward_of_forward (PropTrans2.v)
* C55_f64_r2c_forward_of_backward (PropTrans2.v)
* C56_accurate_bases_exist (PropTrans3.v)
* C56_space1_backward_of_forward_f64 (PropTrans3.v)
* C56_space1_forward_of_backward_f64 (PropTrans3.v)
* C56_space2_backward_of_forward_f64 (PropTrans3.v)
* C56_space2_forward_of_backward_f64 (PropTrans3.v)
* C56_space3_backward_of_forward_f64 (PropTrans3.v)
* C56_space3_forward_of_backward_f64 (PropTrans3.v)
* C57_accurate_bases_exist (PropTrans4.v)
* C57_space1_forward_of_backward_f64 (PropTrans4.v)
* C57_space2_forward_of_backward_f64 (PropTrans4.v)
* C57_space3_forward_of_backward_f64 (PropTrans4.v)
* C58_accurate_bases_exist (PropTrans5.v)
* C58_dirichlet_neumann_exist (PropDN.v)
* C58_space1_backward_values_f64 (PropTrans5.v)
* C58_space1_forward_coefs_f64 (PropTrans5.v)
* C58_space2_backward_values_f64 (PropTrans5.v)
* C58_space2_forward_coefs_f64 (PropTrans5.v)
* C58_space3_backward_values_f64 (PropTrans5.v)
* C58_space3_forward_coefs_f64 (PropTrans5.v)
* C59_c2c_gradient_exists (PropC2c.v)
* C59_dirichlet_neumann_exist (PropDN.v)
* C59_fair_scales_exist (PropGrad2.v)
* C59_gradients_exist (PropGrad.v)
* C59_space1_gradient_f64 (PropGrad.v)
* C59_space1_scaled_gradient_f64 (PropGrad2.v)
* C59_space2_gradient_f64 (PropGrad.v)
* C59_space2_scaled_gradient_f64 (PropGrad2.v)
* C59_space3_gradient_f64 (PropGrad.v)
* C59_space3_scaled_gradient_f64 (PropGrad2.v)
* C59_tiny_scale_ruins_complex_results (PropGrad2.v)
* C60_bases_exist (PropOrtho.v)
* C60_dirichlet_neumann_exist (PropDN.v)
* C60_space1_from_ortho_f64 (PropOrtho.v)
* C60_space1_ortho_there_and_back_f64 (PropOrtho3.v)
* C60_space1_to_ortho_f64 (PropOrtho.v)
* C60_space2_from_ortho_f64 (PropOrtho.v)
* C60_space2_ortho_there_and_back_f64 (PropOrtho3.v)
* C60_space2_to_ortho_f64 (PropOrtho.v)
* C60_space3_from_ortho_f64 (PropOrtho.v)
* C60_space3_ortho_there_and_back_f64 (PropOrtho3.v)
* C60_space3_to_ortho_f64 (PropOrtho.v)
* C61_mpi_examples_run_to_completion_f64 (PropExample2.v)
* C61_space_mpi_example (PropExample2.v)
* C62_main_f64 (PropField2.v)
* C63_backward_mpi_f32 (PropDistF32.v)
* C63_backward_mpi_f64 (PropDistF64.v)
* C63_forward_mpi_f32 (PropDistF32.v)
* C63_forward_mpi_f64 (PropDistF64.v)
* C63_from_ortho_mpi_f32 (PropDistF32.v)
* C63_from_ortho_mpi_f64 (PropDistF64.v)
* C63_gradient_mpi_f32 (PropDistF32.v)
* C63_gradient_mpi_f64 (PropDistF64.v)
* C63_ortho_there_and_back_mpi_f32 (PropDistOrtho.v)
* C63_ortho_there_and_back_mpi_f64 (PropDistOrtho.v)
* C63_roundtrip_mpi_f32 (PropDistF32.v)
* C63_roundtrip_mpi_f64 (PropDistF64.v)
* C63_scaled_gradient_mpi_f32 (PropDistF32.v)
* C63_scaled_gradient_mpi_f64 (PropDistF64b.v)
* C63_to_ortho_mpi_f32 (PropDistF32.v)
* C63_to_ortho_mpi_f64 (PropDistF64.v)
* C64_diffmat_f64 (PropMat.v)
* C64_diffmat_f64_exact (PropMat.v)
* C64_diffmat_pinv_f64 (PropMat.v)
* C64_f64_matrix_differentiates (PropMat.v)
* C64_fourier_diffmat_f64 (PropMat2.v)
* C64_fourier_diffmat_pinv_f64 (PropMat2.v)
* C64_fourier_laplacian_f64 (PropMat2.v)
* C64_stencil_f64 (PropMat.v)
* C64_stencil_inv_f64 (PropMat3.v)
* C65_chebyshev_coords_f64 (PropGrid.v)
* C65_composite_coords_f64 (PropGrid.v)
* C65_distinct_points (PropGrid.v)
* C65_fourier_coords_f64 (PropGrid.v)
* C66_chebyshev_coords_f32 (PropF32.v)
* C66_diffmat_f32 (PropF32.v)
* C66_diffmat_pinv_f32 (PropF32.v)
* C66_distinct_points_f32 (PropF32.v)
* C66_fourier_coords_f32 (PropF32.v)
* C66_neumann_stencil_f32 (PropF32.v)
* C66_points_collide_f32 (PropF32.v)
* C66_stencil_f32 (PropF32.v)
* C66_stencil_inv_f32 (PropMat3.v)
* C67_accurate_bases_exist (PropTrans7.v)
* C67_accurate_composite_bases_exist (PropTrans9.v)
* C67_accurate_orthogonal_bases_exist (PropTrans8.v)
* C67_dirichlet_neumann_exist (PropDN.v)
* C67_space1_backward_of_forward_f32 (PropTrans8.v)
* C67_space1_backward_values_f32 (PropTrans7.v)
* C67_space1_forward_coefs_f32 (PropTrans7.v)
* C67_space1_forward_of_backward_f32 (PropTrans8.v)
* C67_space1_spectral_round_trip_f32 (PropTrans9.v)
* C67_space2_backward_of_forward_f32 (PropTrans8.v)
* C67_space2_backward_values_f32 (PropTrans7.v)
* C67_space2_forward_coefs_f32 (PropTrans7.v)
* C67_space2_forward_of_backward_f32 (PropTrans8.v)
* C67_space2_spectral_round_trip_f32 (PropTrans9.v)
* C67_space3_backward_of_forward_f32 (PropTrans8.v)
* C67_space3_backward_values_f32 (PropTrans7.v)
* C67_space3_forward_coefs_f32 (PropTrans7.v)
* C67_space3_forward_of_backward_f32 (PropTrans8.v)
* C67_space3_spectral_round_trip_f32 (PropTrans9.v)
* C68_bases_exist (PropOrtho2.v)
* C68_c2c_gradient_exists (PropC2c.v)
* C68_dirichlet_neumann_exist (PropDN.v)
* C68_fair_scales_exist (PropGrad4.v)
* C68_gradients_exist (PropGrad3.v)
* C68_space1_from_ortho_f32 (PropOrtho2.v)
* C68_space1_gradient_f32 (PropGrad3.v)
* C68_space1_ortho_there_and_back_f32 (PropOrtho4.v)
* C68_space1_scaled_gradient_f32 (PropGrad4.v)
* C68_space1_to_ortho_f32 (PropOrtho2.v)
* C68_space2_from_ortho_f32 (PropOrtho2.v)
* C68_space2_gradient_f32 (PropGrad3.v)
* C68_space2_ortho_there_and_back_f32 (PropOrtho4.v)
* C68_space2_scaled_gradient_f32 (PropGrad4.v)
* C68_space2_to_ortho_f32 (PropOrtho2.v)
* C68_space3_from_ortho_f32 (PropOrtho2.v)
* C68_space3_gradient_f32 (PropGrad3.v)
* C68_space3_ortho_there_and_back_f32 (PropOrtho4.v)
* C68_space3_scaled_gradient_f32 (PropGrad4.v)
* C68_space3_to_ortho_f32 (PropOrtho2.v)
* C68_tiny_scale_ruins_complex_results (PropGrad4.v)
* C69_space1_coefficients_f32 (PropTrips2.v)
* C69_space1_coefficients_f64 (PropTrips.v)
* C69_space1_ortho_f32 (PropTrips4.v)
* C69_space1_ortho_f64 (PropTrips3.v)
* C69_space1_values_f32 (PropTrips2.v)
* C69_space1_values_f64 (PropTrips.v)
* C69_space2_coefficients_f32 (PropTrips2.v)
* C69_space2_coefficients_f64 (PropTrips.v)
* C69_space2_ortho_f32 (PropTrips4.v)
* C69_space2_ortho_f64 (PropTrips3.v)
* C69_space2_values_f32 (PropTrips2.v)
* C69_space2_values_f64 (PropTrips.v)
* C69_space3_coefficients_f32 (PropTrips2.v)
* C69_space3_coefficients_f64 (PropTrips.v)
* C69_space3_ortho_f32 (PropTrips4.v)
* C69_space3_ortho_f64 (PropTrips3.v)
* C69_space3_values_f32 (PropTrips2.v)
* C69_space3_values_f64 (PropTrips.v)
* C70_coefs_program_f32 (PropProgram2.v)
* C70_coefs_program_f64 (PropProgram2.v)
* C70_ortho_program_f32 (PropProgram2.v)
* C70_ortho_program_f64 (PropProgram2.v)
* C70_values_program_f32 (PropProgram2.v)
* C70_values_program_f64 (PropProgram2.v)
* C71_space1_coefficients_f32 (PropParProgram2.v)
* C71_space1_coefficients_f64 (PropParProgram2.v)
* C71_space1_values_f32 (PropParProgram2.v)
* C71_space1_values_f64 (PropParProgram2.v)
* C71_space2_coefficients_f32 (PropParProgram2.v)
* C71_space2_coefficients_f64 (PropParProgram2.v)
* C71_space2_values_f32 (PropParProgram2.v)
* C71_space2_values_f64 (PropParProgram2.v)
* C71_space3_coefficients_f32 (PropParProgram2.v)
* C71_space3_coefficients_f64 (PropParProgram2.v)
* C71_space3_values_f32 (PropParProgram2.v)
* C71_space3_values_f64 (PropParProgram2.v)

