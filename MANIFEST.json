{
 "claims": [
  {
   "property": "C01",
   "status": "proved",
   "theorems": [
    "C01_cheb_forward_of_backward"
   ],
   "note": "exact real arithmetic; DCT-I by its documented formula"
  },
  {
   "property": "C02",
   "status": "proved",
   "theorems": [
    "C02_cheb_backward_of_forward"
   ],
   "note": "exact real arithmetic; DCT-I by its documented formula"
  },
  {
   "property": "C03",
   "status": "proved",
   "theorems": [
    "C03_cheb_backward_evaluates",
    "C03_cheb_forward_interpolates",
    "C03_T_is_cos"
   ],
   "note": "exact real arithmetic"
  },
  {
   "property": "C04",
   "status": "proved",
   "theorems": [
    "C04_cheb_coords",
    "C04_compo_coords"
   ],
   "note": "orthogonal and composite bases"
  },
  {
   "property": "C05",
   "status": "proved",
   "theorems": [
    "C05_cheb_gradient_is_derivative",
    "C05_cheb_gradient_composes",
    "C05_compo_gradient_is_derivative"
   ],
   "note": "orthogonal (n >= 3) and non-biharmonic composite bases; n = 2 and biharmonic are UB, see C16"
  },
  {
   "property": "C06",
   "status": "proved",
   "theorems": [
    "C06_cheb_diffmat_is_gradient",
    "C06_cheb_laplacian_is_second_derivative",
    "C06_cheb_diffmat4_release_wrong",
    "C06_base_diffmat_is_gradient"
   ],
   "note": "on the size range of C07, and proved wrong for d=4 release beyond it"
  },
  {
   "property": "C07",
   "status": "proved",
   "theorems": [
    "C07_safe_sizes",
    "C07_diffmat_returns_on_safe_sizes",
    "C07_diffmat3_debug_panics",
    "C07_diffmat4_debug_panics",
    "C07_other_orders_panic"
   ],
   "note": "positive range and exact debug failure range; the natural claim (never fails) is refuted"
  },
  {
   "property": "C08",
   "status": "proved",
   "theorems": [
    "C08_cheb_diffmat_pinv",
    "C08_safe_sizes",
    "C08_pinv_undoes_gradient",
    "C08_pinv_debug_panics_large",
    "C08_pinv_release_wrong_large",
    "C08_cheb_diffmat_pinv_small_panics",
    "C08_other_orders_panic",
    "C08_base_diffmat_pinv"
   ],
   "note": "2d <= n <= exact overflow bound; below: panic; above: debug panic, release wrong (proved). Integer overflow of _pinv modelled."
  },
  {
   "property": "C09",
   "status": "proved",
   "theorems": [
    "C09_to_ortho_is_stencil",
    "C09_biharmonic_to_ortho_UB"
   ],
   "note": "non-biharmonic proved; biharmonic refuted (UB on every call)"
  },
  {
   "property": "C10",
   "status": "proved",
   "theorems": [
    "C10_stencil_boundary_conditions",
    "C10_to_ortho_boundary_conditions"
   ],
   "note": ""
  },
  {
   "property": "C11",
   "status": "proved",
   "theorems": [
    "C11_from_ortho_least_squares"
   ],
   "note": "all five kinds; also least-squares optimality and uniqueness"
  },
  {
   "property": "C12",
   "status": "proved",
   "theorems": [
    "C12_from_ortho_of_to_ortho",
    "C12_from_ortho_of_stencil",
    "C12_biharmonic_UB"
   ],
   "note": "all kinds with the stencil matrix; to_ortho version for non-biharmonic; biharmonic to_ortho refuted"
  },
  {
   "property": "C13",
   "status": "proved",
   "theorems": [
    "C13_stencil_inv_left_inverse",
    "C13_dirichlet_inverse",
    "C13_neumann_inverse"
   ],
   "note": "all five kinds; explicit entries for Dirichlet and Neumann (PropMat3.v)"
  },
  {
   "property": "C14",
   "status": "proved",
   "theorems": [
    "C14_same_on_range",
    "C14_differ_off_range"
   ],
   "note": "equal on the range; refuted off it for every kind and size"
  },
  {
   "property": "C15",
   "status": "proved",
   "theorems": [
    "C15_tdma_solves",
    "C15_pdma_solves",
    "C15_pdma2_solves",
    "C15_solution_unique",
    "C15_diag_dominant_suffices",
    "C15_pos_def_suffices",
    "C15_modes_agree",
    "C15_small_sizes_panic"
   ],
   "note": "for exact real arithmetic; any real or complex right-hand side"
  },
  {
   "property": "C16",
   "status": "proved",
   "theorems": [
    "C16_from_ortho_no_UB",
    "C16_forward_no_UB",
    "C16_to_ortho_gradient_no_UB",
    "C16_backward_no_UB",
    "C16_biharmonic_out_of_bounds",
    "C16_cheb_gradient_out_of_bounds_iff"
   ],
   "note": "positive part and exact exceptions"
  },
  {
   "property": "C17",
   "status": "proved",
   "theorems": [
    "C17_to_ortho_slice_long_output_UB",
    "C17_from_ortho_slice_short_input_UB",
    "C17_orthogonal_slices_never_UB",
    "C17_chebyshev_wrong_lengths_panic",
    "C17_r2c_wrong_lengths_panic",
    "C17_c2c_wrong_lengths_panic"
   ],
   "note": "orthogonal bases sound and every wrong length refused (any arithmetic, PropLen.v); composite bases proved unsound"
  },
  {
   "property": "C18",
   "status": "proved",
   "theorems": [
    "C18_forward_of_backward",
    "C18_projection"
   ],
   "note": "non-biharmonic kinds"
  },
  {
   "property": "C19",
   "status": "proved",
   "theorems": [
    "C19_r2c_backward_of_forward"
   ],
   "note": "exact real arithmetic; rustfft/realfft by the DFT they document; n = 0 not modelled"
  },
  {
   "property": "C20",
   "status": "proved",
   "theorems": [
    "C20_r2c_forward_of_backward",
    "C20_r2c_identity_iff_real"
   ],
   "note": "exact real arithmetic; rustfft/realfft by the DFT they document; n = 0 not modelled"
  },
  {
   "property": "C21",
   "status": "proved",
   "theorems": [
    "C21_c2c_backward_of_forward",
    "C21_c2c_forward_of_backward"
   ],
   "note": "exact real arithmetic; rustfft/realfft by the DFT they document; n = 0 not modelled"
  },
  {
   "property": "C22",
   "status": "proved",
   "theorems": [
    "C22_r2c_gradient_is_derivative",
    "C22_r2c_diffmat_is_gradient",
    "C22_diffmat_panics"
   ],
   "note": "exact real arithmetic; rustfft/realfft by the DFT they document; n = 0 not modelled; diffmat for 1 <= d < 2^31, otherwise proved to panic"
  },
  {
   "property": "C23",
   "status": "proved",
   "theorems": [
    "C23_c2c_diffmat_is_derivative",
    "C23_c2c_gradient_right_iff",
    "C23_c2c_gradient_loses_mode"
   ],
   "note": "characterisation; the natural claim is refuted for every n >= 2, d >= 1"
  },
  {
   "property": "C24",
   "status": "proved",
   "theorems": [
    "C24_laplacian_is_diffmat2",
    "C24_r2c_pinv",
    "C24_c2c_pinv"
   ],
   "note": "both Fourier bases"
  },
  {
   "property": "C25",
   "status": "proved",
   "theorems": [
    "C25_inplace_methods_act_on_every_line",
    "C25_allocating_methods_act_on_every_line",
    "C25_line_elements",
    "C25_lines_determine_array"
   ],
   "note": "all bases, shapes, axes; Zip may visit lanes in any order"
  },
  {
   "property": "C26",
   "status": "proved",
   "theorems": [
    "C26_inplace_par_equals_serial",
    "C26_allocating_par_equals_serial",
    "C26_every_schedule_terminates",
    "C26_lanes_are_disjoint",
    "C26_implementation_exists"
   ],
   "note": "every interleaving of individual memory accesses of the lane tasks; termination; rayon/ndarray themselves are trusted"
  },
  {
   "property": "C27",
   "status": "proved",
   "theorems": [
    "C27_mismatch_panics_before_any_write",
    "C27_par_mismatch_panics_before_any_write",
    "C27_allocating_mismatch_panics",
    "C27_fitting_arguments_never_panic_for_size"
   ],
   "note": "for arbitrary slice methods"
  },
  {
   "property": "C28",
   "status": "proved",
   "theorems": [
    "C28_result_independent_of_previous_output",
    "C28_inplace_equals_allocating"
   ],
   "note": "all bases, exact real arithmetic"
  },
  {
   "property": "C29",
   "status": "proved",
   "theorems": [
    "C29_one_dimensional_roundtrips",
    "C29_space1_applies_each_base_along_its_axis",
    "C29_space1_rejects_wrong_shapes",
    "C29_space1_spectral_roundtrip",
    "C29_space1_physical_roundtrip",
    "C29_space2_applies_each_base_along_its_axis",
    "C29_space2_rejects_wrong_shapes",
    "C29_space2_spectral_roundtrip",
    "C29_space2_physical_roundtrip",
    "C29_space1_forward_backward_forward",
    "C29_space2_forward_backward_forward",
    "C29_space2_any_axis_order",
    "C29_space2_transforms_any_axis_order",
    "C29_space1_ortho_roundtrip",
    "C29_space2_ortho_roundtrip",
    "C29_space2_par_equals_serial",
    "C29_space1_par_equals_serial",
    "C29_space1_zero_field",
    "C29_space2_zero_field"
   ],
   "note": "tensor product, shapes, rejection, axis-order independence, round trips, F B F = F, par = serial; exact real arithmetic"
  },
  {
   "property": "C30",
   "status": "proved",
   "theorems": [
    "C30_space3_applies_each_base_along_its_axis",
    "C30_space3_rejects_wrong_shapes",
    "C30_space3_spectral_roundtrip",
    "C30_space3_physical_roundtrip",
    "C30_space3_forward_backward_forward",
    "C30_space3_any_axis_order",
    "C30_space3_transforms_any_axis_order",
    "C30_space3_ortho_roundtrip",
    "C30_space3_par_equals_serial",
    "C30_space3_zero_field"
   ],
   "note": "as C29, three axes"
  },
  {
   "property": "C31",
   "status": "proved",
   "theorems": [
    "C31_defined_derivatives",
    "C31_space1_gradient",
    "C31_space2_gradient_applies_each_base_along_its_axis",
    "C31_space2_gradient_any_axis_order",
    "C31_space3_gradient_ignores_third_base",
    "C31_space3_gradient_uses_second_base_on_third_axis",
    "C31_space3_intended_gradient_is_total",
    "C31_space3_gradient_correct_for_like_bases",
    "C31_space3_gradient_unusable_for_unequal_extents",
    "C31_space3_gradient_wrong_values"
   ],
   "note": "Space1/2 correct; Space3 characterised and the natural claim refuted"
  },
  {
   "property": "C32",
   "status": "proved",
   "theorems": [
    "C32_scaled_gradient_is_divided_by_the_product_of_powers",
    "C32_exponent_wraps",
    "C32_space1_derivative_in_stretched_coordinate",
    "C32_space2_mixed_derivative_in_stretched_coordinates",
    "C32_fourier_space2_mixed_derivative_in_stretched_coordinates",
    "C32_fourier_space1_derivative_in_stretched_coordinate",
    "C32_space3_mixed_derivative_in_stretched_coordinates",
    "C32_fourier_space3_mixed_derivative_in_stretched_coordinates",
    "C32_scale_divides_by_the_wrapped_power"
   ],
   "note": "division law for all spaces; derivative w.r.t. stretched coordinates for Chebyshev-type Space1/Space2 and r2c x Chebyshev Space2; wrap-around for d >= 2^31 proved"
  },
  {
   "property": "C33",
   "status": "proved",
   "theorems": [
    "C33_distribution"
   ],
   "note": "any number of axes and ranks; machine integers"
  },
  {
   "property": "C34",
   "status": "proved",
   "theorems": [
    "C34_debug_panics",
    "C34_release_table",
    "C34_release_transpose_panics"
   ],
   "note": "debug panics, release table, release transpose; natural claim refuted"
  },
  {
   "property": "C35",
   "status": "proved",
   "theorems": [
    "C35_transpose_x_to_y",
    "C35_transpose_y_to_x",
    "C35_there_and_back",
    "C35_counts_match"
   ],
   "note": "every schedule of the ranks, any array already in the output"
  },
  {
   "property": "C36",
   "status": "proved",
   "theorems": [
    "C36_split_array",
    "C36_gather",
    "C36_all_gather",
    "C36_scatter",
    "C36_gather_after_scatter",
    "C36_split_array_inplace",
    "C36_collectives_write_only_their_receive_blocks",
    "C36_sent_blocks_lie_inside_the_send_buffer"
   ],
   "note": "every schedule of the ranks"
  },
  {
   "property": "C37",
   "status": "proved",
   "theorems": [
    "C37_wrong_shape_panics",
    "C37_gather_output_checked",
    "C37_root_checked"
   ],
   "note": "all routines"
  },
  {
   "property": "C38",
   "status": "proved",
   "theorems": [
    "C38_lookup",
    "C38_duplicates",
    "C38_one_entry_per_insert"
   ],
   "note": "every history of inserts; duplicate inserts are invisible to lookups but grow the public map (documented panic does not exist)"
  },
  {
   "property": "C39",
   "status": "proved",
   "theorems": [
    "C39_every_lookup_is_registered",
    "C39_constructor_returns"
   ],
   "note": "any bases, any ranks; constructor returns whenever the shapes can be distributed"
  },
  {
   "property": "C40",
   "status": "proved",
   "theorems": [
    "C40_forward",
    "C40_backward",
    "C40_to_ortho",
    "C40_from_ortho",
    "C40_gradient"
   ],
   "note": "forward, backward, to_ortho, from_ortho, gradient, allocating and in-place, every schedule"
  },
  {
   "property": "C41",
   "status": "proved",
   "theorems": [
    "C41_broadcast",
    "C41_all_gather_sum",
    "C41_gather_sum",
    "C41_real_sum"
   ],
   "note": "every schedule; sum in rank order for any scalar type, equal to the mathematical sum over the reals"
  },
  {
   "property": "C42",
   "status": "proved",
   "theorems": [
    "C42_approx_eq",
    "C42_approx_eq_complex",
    "C42_ndarray",
    "C42_not_a_closeness_test",
    "C42_f64",
    "C42_f64_sound",
    "C42_f64_accepts"
   ],
   "note": "exact reals and IEEE binary64 (NaN, infinities); natural claim refuted"
  },
  {
   "property": "C43",
   "status": "proved",
   "theorems": [
    "C43_f64_length",
    "C43_f64_extra_point_iff",
    "C43_f64_scale",
    "C43_f64_power_of_two",
    "C43_f64_wrong_sizes",
    "C43_exact_coords"
   ],
   "note": "exact arithmetic: n points; binary64: n or n+1, characterised, natural claim refuted for n = 61*2^k"
  },
  {
   "property": "C44",
   "status": "proved",
   "theorems": [
    "C44_constructible_sizes",
    "C44_usable",
    "C44_constructible_but_from_ortho_panics"
   ],
   "note": "exact thresholds; natural claim refuted"
  },
  {
   "property": "C45",
   "status": "proved",
   "theorems": [
    "C45_lin_elements",
    "C45_slice_methods_linear",
    "C45_axis_methods_linear"
   ],
   "note": "slice and array level, exact real arithmetic"
  },
  {
   "property": "C46",
   "status": "proved",
   "theorems": [
    "C46_transpose_counts",
    "C46_gather_counts",
    "C46_too_large_panics"
   ],
   "note": "both build modes"
  },
  {
   "property": "C47",
   "status": "proved",
   "theorems": [
    "C47_r2c_backward_evaluates",
    "C47_r2c_backward_of_gradient",
    "C47_c2c_backward_evaluates",
    "C47_c2c_forward_interpolates",
    "C47_r2c_forward_interpolates"
   ],
   "note": "exact real arithmetic; rustfft/realfft by the DFT they document; n = 0 not modelled"
  },
  {
   "property": "C48",
   "status": "proved",
   "theorems": [
    "C48_pencil_shapes",
    "C48_gather_phys",
    "C48_all_gather_phys",
    "C48_scatter_phys",
    "C48_transpose_phys",
    "C48_gather_spec",
    "C48_all_gather_spec",
    "C48_scatter_spec",
    "C48_transpose_spec"
   ],
   "note": "all helpers in both flavours"
  },
  {
   "property": "C49",
   "status": "proved",
   "theorems": [
    "C49_base_kind_names",
    "C49_base_accessors",
    "C49_space_axis_selects_base",
    "C49_space_coords"
   ],
   "note": "all accessors; behaviour for out-of-range axes stated"
  },
  {
   "property": "C50",
   "status": "proved",
   "theorems": [
    "C50_space1_to_ortho_is_stencil",
    "C50_space2_to_ortho_is_stencil",
    "C50_space3_to_ortho_is_stencil"
   ],
   "note": "Space1/2/3"
  },
  {
   "property": "C51",
   "status": "proved",
   "theorems": [
    "C51_chebyshev_laplacian",
    "C51_fourier_laplacian",
    "C51_laplacian_pinv",
    "C51_pinv_solves",
    "C51_space1_laplacian_is_gradient",
    "C51_space2_laplacian_is_gradient",
    "C51_space3_laplacian_is_gradient"
   ],
   "note": "every base; identification with gradient for Space1/2/3 (Space3 with equal second and third base, C31), except FourierC2c whose gradient is wrong (C23); n <= 2642245 for Chebyshev (overflow beyond, C07)"
  },
  {
   "property": "C52",
   "status": "proved",
   "theorems": [
    "C52_every_base_represents_functions",
    "C52_space1_backward_evaluates",
    "C52_space2_backward_evaluates",
    "C52_space3_backward_evaluates",
    "C52_space2_backward_is_the_chebyshev_series",
    "C52_space2_derivatives_on_the_grid",
    "C52_space1_forward_interpolates",
    "C52_space2_forward_interpolates",
    "C52_space3_forward_interpolates",
    "C52_fourier_space2_derivatives_on_the_grid",
    "C52_space1_derivatives_on_the_grid",
    "C52_fourier_space1_derivatives_on_the_grid",
    "C52_space3_derivatives_on_the_grid",
    "C52_fourier_space3_derivatives_on_the_grid"
   ],
   "note": "Space1/2/3: evaluation and interpolation for every base; derivatives on the grid for every space of Chebyshev-family axes and for FourierR2c x Chebyshev-family axes (Space3 with equal second and third base because of the axis-2 bug, C31; FourierC2c gradients are wrong, C23)"
  },
  {
   "property": "C53",
   "status": "proved",
   "theorems": [
    "C53_fnop_meaning",
    "C53_constructors",
    "C53_chebyshev_slices",
    "C53_composite_slices",
    "C53_fourier_slices",
    "C53_documented_libraries",
    "C53_f64",
    "C53_inplace_methods_act_on_every_line",
    "C53_allocating_methods_act_on_every_line",
    "C53_inplace_par_equals_serial",
    "C53_allocating_par_equals_serial",
    "C53_fitting_arguments_never_panic_for_size",
    "C53_result_independent_of_previous_output",
    "C53_inplace_equals_allocating",
    "C53_implementation_exists",
    "C53_space1_applies_each_base_along_its_axis",
    "C53_space2_applies_each_base_along_its_axis",
    "C53_space3_applies_each_base_along_its_axis",
    "C53_space1_rejects_wrong_shapes",
    "C53_space2_rejects_wrong_shapes",
    "C53_space3_rejects_wrong_shapes",
    "C53_space2_par_equals_serial",
    "C53_space3_par_equals_serial",
    "C53_space1_gradient",
    "C53_space2_gradient",
    "C53_every_lookup_is_registered",
    "C53_constructor_returns",
    "C53_distributed_forward",
    "C53_distributed_backward",
    "C53_distributed_to_ortho",
    "C53_distributed_from_ortho",
    "C53_distributed_gradient",
    "C53_space3_gradient",
    "C53_space1_par_equals_serial"
   ],
   "note": "any record of scalar operations, any ext library with ext_ok; IEEE binary64 instance via Flocq (NaN payloads not distinguished)"
  },
  {
   "property": "C54",
   "status": "proved",
   "theorems": [
    "C54_dirichlet_neumann_to_ortho",
    "C54_tdma_backward_error",
    "C54_dirichlet_to_ortho",
    "C54_dirichlet_boundary",
    "C54_dirichlet_from_ortho",
    "C54_dirichlet_round_trip",
    "C54_gradient",
    "C54_dirichlet_no_overflow",
    "C54_f64_dirichlet_round_trip",
    "C54_f32_dirichlet_round_trip",
    "C54_f64_gradient",
    "C54_f64_gradient_complex",
    "C54_r2c_gradient",
    "C54_c2c_gradient",
    "C54_f64_fourier_gradient",
    "C54_neumann_to_ortho",
    "C54_neumann_boundary",
    "C54_neumann_from_ortho",
    "C54_neumann_round_trip",
    "C54_neumann_no_overflow",
    "C54_f64_neumann_round_trip",
    "C54_f32_neumann_round_trip"
   ],
   "note": "tridiagonal solver, Dirichlet and Neumann bases, Chebyshev and Fourier gradients of every order; f64 and f32 instances; transforms: C55"
  },
  {
   "property": "C55",
   "status": "proved",
   "theorems": [
    "C55_dirichlet_neumann_backward",
    "C55_cheb_backward",
    "C55_cheb_forward",
    "C55_cheb_backward_of_forward",
    "C55_cheb_forward_of_backward",
    "C55_dirichlet_backward",
    "C55_neumann_backward",
    "C55_dirichlet_forward",
    "C55_neumann_forward",
    "C55_dirichlet_forward_of_backward",
    "C55_neumann_forward_of_backward",
    "C55_c2c_backward",
    "C55_c2c_backward_of_forward",
    "C55_c2c_forward_of_backward",
    "C55_r2c_backward",
    "C55_r2c_backward_of_forward",
    "C55_r2c_forward_of_backward",
    "C55_accurate_libraries_exist",
    "C55_f64_cheb_backward_of_forward",
    "C55_f64_cheb_forward_of_backward",
    "C55_f64_dirichlet_forward_of_backward",
    "C55_f64_neumann_forward_of_backward",
    "C55_f64_c2c_backward_of_forward",
    "C55_f64_c2c_forward_of_backward",
    "C55_f64_r2c_backward_of_forward",
    "C55_f64_r2c_forward_of_backward",
    "C55_accurate_f32_libraries_exist",
    "C55_f32_cheb_backward_of_forward",
    "C55_f32_cheb_forward_of_backward",
    "C55_f32_dirichlet_forward_of_backward",
    "C55_f32_neumann_forward_of_backward",
    "C55_f32_c2c_backward_of_forward",
    "C55_f32_c2c_forward_of_backward",
    "C55_f32_r2c_backward_of_forward",
    "C55_f32_r2c_forward_of_backward"
   ],
   "note": "relative to an accuracy assumption on rustdct/rustfft/realfft (LibAcc.v), which is shown satisfiable (LibIdeal.v); Chebyshev, Dirichlet, Neumann, FourierR2c, FourierC2c"
  },
  {
   "property": "C56",
   "status": "proved",
   "theorems": [
    "C56_space1_backward_of_forward_f64",
    "C56_space1_forward_of_backward_f64",
    "C56_space2_backward_of_forward_f64",
    "C56_space2_forward_of_backward_f64",
    "C56_space3_backward_of_forward_f64",
    "C56_space3_forward_of_backward_f64",
    "C56_accurate_bases_exist"
   ],
   "note": "f64; accuracy of the libraries is a hypothesis (LibAcc.v), shown satisfiable by C56_accurate_bases_exist; composite bases: C55 in one dimension"
  },
  {
   "property": "C57",
   "status": "proved",
   "theorems": [
    "C57_space1_forward_of_backward_f64",
    "C57_space2_forward_of_backward_f64",
    "C57_space3_forward_of_backward_f64",
    "C57_accurate_bases_exist"
   ],
   "note": "f64; accuracy of the libraries is a hypothesis (LibAcc.v), shown satisfiable by C57_accurate_bases_exist; the provided size condition excludes systems so large that the bound would exceed the data"
  },
  {
   "property": "C58",
   "status": "proved",
   "theorems": [
    "C58_dirichlet_neumann_functions",
    "C58_dirichlet_neumann_exist",
    "C58_space1_backward_values_f64",
    "C58_space2_backward_values_f64",
    "C58_space3_backward_values_f64",
    "C58_space1_forward_coefs_f64",
    "C58_space2_forward_coefs_f64",
    "C58_space3_forward_coefs_f64",
    "C58_accurate_bases_exist"
   ],
   "note": "f64; accuracy of the libraries is a hypothesis (LibAcc.v), shown satisfiable by C58_accurate_bases_exist; the exact values and coefficients are the sums written out in SpaceVal.v; DirichletNeumann axes: backward"
  },
  {
   "property": "C59",
   "status": "proved",
   "theorems": [
    "C59_c2c_gradient_exists",
    "C59_c2c_right_iff",
    "C59_dirichlet_neumann_exist",
    "C59_exact_maps_are_derivatives",
    "C59_space1_gradient_f64",
    "C59_space2_gradient_f64",
    "C59_space3_gradient_f64",
    "C59_gradients_exist",
    "C59_space1_scaled_gradient_f64",
    "C59_space2_scaled_gradient_f64",
    "C59_space3_scaled_gradient_f64",
    "C59_fair_scales_exist",
    "C59_tiny_scale_ruins_complex_results"
   ],
   "note": "f64; no hypothesis on libraries; with and without scale (PropGrad.v, PropGrad2.v; `powi` is modelled as the repeated product, the compiler's is unspecified in the last bits); on FourierC2c axes the exact map is the code's, which is not the derivative (C23, PropC2c.v); Space3 uses base 1 on axis 2 (C31)"
  },
  {
   "property": "C60",
   "status": "proved",
   "theorems": [
    "C60_dirichlet_neumann_map",
    "C60_dirichlet_neumann_exist",
    "C60_space1_to_ortho_f64",
    "C60_space1_from_ortho_f64",
    "C60_space2_to_ortho_f64",
    "C60_space2_from_ortho_f64",
    "C60_space3_to_ortho_f64",
    "C60_space3_from_ortho_f64",
    "C60_exact_maps",
    "C60_bases_exist",
    "C60_space1_ortho_there_and_back_f64",
    "C60_space2_ortho_there_and_back_f64",
    "C60_space3_ortho_there_and_back_f64"
   ],
   "note": "f64; no hypothesis on libraries; to_ortho: all composites but the biharmonic ones (whose to_ortho is UB, C16); from_ortho: Dirichlet and Neumann (not DirichletNeumann)"
  },
  {
   "property": "C61",
   "status": "proved",
   "theorems": [
    "C61_mpi_examples_run_to_completion",
    "C61_mpi_examples_run_to_completion_f64",
    "C61_space_mpi_example",
    "C61_the_assertion_compares_shape_and_elements"
   ],
   "note": "every_schedule over MpiSem; collectives on different element types in one run via MpiMix.v; f64 part with accurate libraries (C55)"
  },
  {
   "property": "C62",
   "status": "proved",
   "theorems": [
    "C62_dx_is_the_trapezoidal_rule",
    "C62_cells_of_a_field",
    "C62_field_methods_are_the_serial_ones",
    "C62_a_field_asks_the_base_of_the_axis",
    "C62_ingredients_fourier",
    "C62_ingredients_panic_on_every_chebyshev_axis",
    "C62_main",
    "C62_main_f64",
    "C62_a_new_field_follows_the_axes"
   ],
   "note": "The ingredients functions panic on every Chebyshev-kind axis (a defect of the example, proved). PropField3.v: what a new field holds, axis by axis."
  },
  {
   "property": "C63",
   "status": "proved",
   "theorems": [
    "C63_forward_mpi_f32",
    "C63_backward_mpi_f32",
    "C63_to_ortho_mpi_f32",
    "C63_from_ortho_mpi_f32",
    "C63_gradient_mpi_f32",
    "C63_roundtrip_mpi_f32",
    "C63_scaled_gradient_mpi_f32",
    "C63_forward_mpi_f64",
    "C63_backward_mpi_f64",
    "C63_to_ortho_mpi_f64",
    "C63_from_ortho_mpi_f64",
    "C63_gradient_mpi_f64",
    "C63_roundtrip_mpi_f64",
    "C63_scaled_gradient_mpi_f64",
    "C63_ortho_there_and_back_mpi_f64",
    "C63_ortho_there_and_back_mpi_f32"
   ],
   "note": "composition of C53 (distributed = serial, bit for bit) with C56, C58-C60; gradient with and without scale; f64 and f32"
  },
  {
   "property": "C64",
   "status": "proved",
   "theorems": [
    "C64_diffmat_f64",
    "C64_exact_sizes",
    "C64_diffmat_f64_exact",
    "C64_f64_matrix_differentiates",
    "C64_diffmat_pinv_f64",
    "C64_stencil_f64",
    "C64_fourier_diffmat_f64",
    "C64_fourier_diffmat_pinv_f64",
    "C64_fourier_laplacian_f64",
    "C64_stencil_inv_f64"
   ],
   "note": "f64 against exact arithmetic by a relational run of the same program (MatRel.v): outcome and entries. diffmat for all n, d, builds (also where the release build wraps); pinv up to psafe (C08); stencil up to 2^17 points, correctly rounded; diffmat exact up to exact_size. Fourier bases (PropMat2.v): diffmat exact while max(1,n/2)^d <= 2^53, laplacian correctly rounded, both pseudo-inverses within 3*2^-53. stencil_inv (PropMat3.v, StencilInv.v): Dirichlet and Neumann bases; the other three kinds are not part of it."
  },
  {
   "property": "C65",
   "status": "proved",
   "theorems": [
    "C65_chebyshev_coords_f64",
    "C65_composite_coords_f64",
    "C65_distinct_points",
    "C65_fourier_coords_f64"
   ],
   "note": "PropGrid.v, GridF64.v. The sine of the standard library is external: its accuracy is a hypothesis, met by the correctly rounded sine (C65_case_sine). pi64 against pi by Machin's formula."
  },
  {
   "property": "C66",
   "status": "proved",
   "theorems": [
    "C66_diffmat_f32",
    "C66_diffmat_pinv_f32",
    "C66_stencil_f32",
    "C66_neumann_stencil_f32",
    "C66_chebyshev_coords_f32",
    "C66_distinct_points_f32",
    "C66_points_collide_f32",
    "C66_fourier_coords_f32",
    "C66_stencil_inv_f32"
   ],
   "note": "F32.v (the code at A = f32: f64 results converted), PropF32.v. The f32 sine is external: its accuracy is a hypothesis, met by the correctly rounded sine (C66_case_sine)."
  },
  {
   "property": "C67",
   "status": "proved",
   "theorems": [
    "C67_dirichlet_neumann_exist",
    "C67_space1_backward_values_f32",
    "C67_space2_backward_values_f32",
    "C67_space3_backward_values_f32",
    "C67_space1_forward_coefs_f32",
    "C67_space2_forward_coefs_f32",
    "C67_space3_forward_coefs_f32",
    "C67_accurate_bases_exist",
    "C67_space1_backward_of_forward_f32",
    "C67_space1_forward_of_backward_f32",
    "C67_space2_backward_of_forward_f32",
    "C67_space2_forward_of_backward_f32",
    "C67_space3_backward_of_forward_f32",
    "C67_space3_forward_of_backward_f32",
    "C67_accurate_orthogonal_bases_exist",
    "C67_space1_spectral_round_trip_f32",
    "C67_space2_spectral_round_trip_f32",
    "C67_space3_spectral_round_trip_f32",
    "C67_accurate_composite_bases_exist"
   ],
   "note": "PropTrans7.v (values and coefficients), PropTrans8.v (round trips of Chebyshev and Fourier axes), PropTrans9.v (with Dirichlet and Neumann axes); vocabulary in SpaceVal32.v. The accuracy of the external transforms is a hypothesis on E, met by correctly rounded transforms (C67_accurate_*_bases_exist)."
  },
  {
   "property": "C68",
   "status": "proved",
   "theorems": [
    "C68_c2c_gradient_exists",
    "C68_dirichlet_neumann_exist",
    "C68_space1_gradient_f32",
    "C68_space2_gradient_f32",
    "C68_space3_gradient_f32",
    "C68_gradients_exist",
    "C68_space1_scaled_gradient_f32",
    "C68_space2_scaled_gradient_f32",
    "C68_space3_scaled_gradient_f32",
    "C68_fair_scales_exist",
    "C68_tiny_scale_ruins_complex_results",
    "C68_space1_to_ortho_f32",
    "C68_space1_from_ortho_f32",
    "C68_space2_to_ortho_f32",
    "C68_space2_from_ortho_f32",
    "C68_space3_to_ortho_f32",
    "C68_space3_from_ortho_f32",
    "C68_bases_exist",
    "C68_space1_ortho_there_and_back_f32",
    "C68_space2_ortho_there_and_back_f32",
    "C68_space3_ortho_there_and_back_f32"
   ],
   "note": "PropGrad3.v (gradients), PropGrad4.v (with a scale, and the scales that ruin complex results), PropOrtho2.v (to_ortho, from_ortho); vocabulary in GradSpec32.v; the exact maps are those of C59 and C60. On FourierC2c axes as in C59 (PropC2c.v)."
  },
  {
   "property": "C69",
   "status": "proved",
   "theorems": [
    "C69_space1_values_f64",
    "C69_space2_values_f64",
    "C69_space3_values_f64",
    "C69_space1_coefficients_f64",
    "C69_space2_coefficients_f64",
    "C69_space3_coefficients_f64",
    "C69_space1_values_f32",
    "C69_space2_values_f32",
    "C69_space3_values_f32",
    "C69_space1_coefficients_f32",
    "C69_space2_coefficients_f32",
    "C69_space3_coefficients_f32",
    "C69_space1_ortho_f64",
    "C69_space2_ortho_f64",
    "C69_space3_ortho_f64",
    "C69_space1_ortho_f32",
    "C69_space2_ortho_f32",
    "C69_space3_ortho_f32"
   ],
   "note": "Trips.v (repeat_trip and the induction), PropTrips.v (f64), PropTrips2.v (f32), PropTrips3.v and PropTrips4.v (to_ortho/from_ortho). The one-trip bounds are C56/C57/C67 and C60/C68; C69_example_thousand_trips runs a thousand trips of the field of the C56 example."
  },
  {
   "property": "C70",
   "status": "proved",
   "theorems": [
    "C70_mpi_programs_behave_like_serial_programs",
    "C70_gathered_data_do_not_depend_on_the_number_of_ranks",
    "C70_values_program",
    "C70_coefs_program",
    "C70_ortho_program",
    "C70_values_program_f64",
    "C70_coefs_program_f64",
    "C70_ortho_program_f64",
    "C70_values_program_f32",
    "C70_coefs_program_f32",
    "C70_ortho_program_f32"
   ],
   "note": "MpiProgram.v (programs, their serial and distributed meaning, admissibility), PropProgram.v. Every step is one call of Space2/Space2Mpi; the user's own arithmetic is restricted to functions of whole lines along the undivided axis. C70_hyps_met: a nonlinear time loop with a stopping criterion. PropProgram2.v: whole programs of q round trips (scatter, q trips, all_gather): in any arithmetic every rank gathers the serial result; in f64 and f32 it is within the drift bound of C69 of what the root scattered (C70_example_thousand_trips: a thousand trips on one to three ranks)."
  },
  {
   "property": "C71",
   "status": "proved",
   "theorems": [
    "C71_programs_of_serial_and_parallel_calls_have_one_outcome",
    "C71_space1_values_f64",
    "C71_space2_values_f64",
    "C71_space3_values_f64",
    "C71_space1_coefficients_f64",
    "C71_space2_coefficients_f64",
    "C71_space3_coefficients_f64",
    "C71_space1_values_f32",
    "C71_space2_values_f32",
    "C71_space3_values_f32",
    "C71_space1_coefficients_f32",
    "C71_space2_coefficients_f32",
    "C71_space3_coefficients_f32"
   ],
   "note": "ParProgram.v (programs, all their outcomes, their serial version), PropParProgram.v. The memory accesses of each slice method are any program that computes it (base_implements; C53_implementation_exists). C71_hyps_met: a time loop on a 2-D and a 1-D space with a stopping criterion, and a program that runs to the end. Hypotheses: arrays have as many elements as their shape says (every ndarray), also those that the user's steps make. PropParProgram2.v: q round trips (values or coefficients, 1-3 axes, f64 and f32), each call serial or parallel: one outcome, within the drift bound of C69."
  }
 ]
}