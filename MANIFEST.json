{
 "claims": [
  {
   "property": "C01",
   "status": "proved",
   "theorems": [
    "C01_exchange_delivers"
   ],
   "note": "exchange of one array; any element type"
  },
  {
   "property": "C02",
   "status": "proved",
   "theorems": [
    "C02_exchange_gather_all",
    "C02_exchange_total"
   ],
   "note": ""
  },
  {
   "property": "C03",
   "status": "proved",
   "theorems": [
    "C03_counts_conserved"
   ],
   "note": ""
  },
  {
   "property": "C04",
   "status": "proved",
   "theorems": [
    "C04_gather_sum",
    "C04_every_copy_once"
   ],
   "note": "sum in rank order, so no algebraic law of + is needed"
  },
  {
   "property": "C05",
   "status": "proved",
   "theorems": [
    "C05_gather_any",
    "C05_gather_mean",
    "C05_roundtrip_any",
    "C05_roundtrip_mean"
   ],
   "note": "mean in exact rationals"
  },
  {
   "property": "C06",
   "status": "proved",
   "theorems": [
    "C06_gather_local"
   ],
   "note": ""
  },
  {
   "property": "C07",
   "status": "proved",
   "theorems": [
    "C07_gather_ufunc",
    "C07_gather_ufunc_no_copy_refuted"
   ],
   "note": "needs a copy of every particle; without one the result is wrong or the call raises (refutation witnesses)"
  },
  {
   "property": "C08",
   "status": "proved",
   "theorems": [
    "C08_exchange_mismatch_all_raise",
    "C08_gather_mismatch_all_raise",
    "C08_no_mismatch_no_raise",
    "C08_column_mismatch_not_collective_refuted",
    "C08_bad_index_not_collective"
   ],
   "note": "the column-length and trailing-shape checks are not collective: refutation witness"
  },
  {
   "property": "C09",
   "status": "proved",
   "theorems": [
    "C09_packed_equals_columns"
   ],
   "note": ""
  },
  {
   "property": "C10",
   "status": "proved",
   "theorems": [
    "C10_decompose_valid",
    "C10_assignment_range_refuted"
   ],
   "note": "counts, index range, strictly increasing index list per destination; int16 storage of domain indices not modelled"
  },
  {
   "property": "C11",
   "status": "proved",
   "theorems": [
    "C11_coverage"
   ],
   "note": "any dimension, periodic or not; bound on the smoothing length stated per particle"
  },
  {
   "property": "C12",
   "status": "proved",
   "theorems": [
    "C12_coverage_large_smoothing_refuted"
   ],
   "note": "witness"
  },
  {
   "property": "C13",
   "status": "proved",
   "theorems": [
    "C13_no_spurious_ghosts"
   ],
   "note": ""
  },
  {
   "property": "C14",
   "status": "proved",
   "theorems": [
    "C14_one_home",
    "C14_primaries_counted_once"
   ],
   "note": ""
  },
  {
   "property": "C15",
   "status": "proved",
   "theorems": [
    "C15_degenerate_harmless",
    "C15_flag_of_rank_refuted"
   ],
   "note": "the degeneracy flag is looked up at the position of the rank; three refutation witnesses for other assignments"
  },
  {
   "property": "C16",
   "status": "proved",
   "theorems": [
    "C16_default_assignment"
   ],
   "note": ""
  },
  {
   "property": "C17",
   "status": "proved",
   "theorems": [
    "C17_loadbalance"
   ],
   "note": "integer loads; heapq by its meaning"
  },
  {
   "property": "C18",
   "status": "proved",
   "theorems": [
    "C18_load_counts"
   ],
   "note": "also totals on grids that are not periodic"
  },
  {
   "property": "C19",
   "status": "proved",
   "theorems": [
    "C19_uniform_at_most",
    "C19_uniform_positive",
    "C19_uniform_positive_root",
    "C19_uniform_empty_refuted"
   ],
   "note": "the root r is a rational argument; the positive theorem holds for any r not above the exact root"
  },
  {
   "property": "C20",
   "status": "proved",
   "theorems": [
    "C20_kernels",
    "C20_partition_of_unity"
   ],
   "note": ""
  },
  {
   "property": "C21",
   "status": "proved",
   "theorems": [
    "C21_mass_conserved"
   ],
   "note": ""
  },
  {
   "property": "C22",
   "status": "proved",
   "theorems": [
    "C22_readout_constant"
   ],
   "note": ""
  },
  {
   "property": "C23",
   "status": "proved",
   "theorems": [
    "C23_adjoint"
   ],
   "note": ""
  },
  {
   "property": "C24",
   "status": "proved",
   "theorems": [
    "C24_tuned_is_generic",
    "C24_cic_gradient_refuted",
    "C24_pcs_gradient_refuted",
    "C24_hsml_refuted"
   ],
   "note": "exceptions proved to be real"
  },
  {
   "property": "C25",
   "status": "proved",
   "theorems": [
    "C25_periodic_images"
   ],
   "note": ""
  },
  {
   "property": "C26",
   "status": "proved",
   "theorems": [
    "C26_interleaving",
    "C26_order",
    "C26_batches"
   ],
   "note": ""
  },
  {
   "property": "C27",
   "status": "proved",
   "theorems": [
    "C27_locality",
    "C27_readout_locality"
   ],
   "note": ""
  },
  {
   "property": "C28",
   "status": "proved",
   "theorems": [
    "C28_visited_once",
    "C28_no_weight_dropped",
    "C28_applies",
    "C28_wavelets_refuted"
   ],
   "note": "tables enter as arbitrary functions"
  },
  {
   "property": "C29",
   "status": "proved",
   "theorems": [
    "C29_readout_gradient",
    "C29_paint_gradient",
    "C29_cic_gradient",
    "C29_nnb_gradient",
    "C29_table_gradient",
    "C29_pcs_refuted"
   ],
   "note": "derivative stated in Q as a uniform second order bound"
  },
  {
   "property": "C30",
   "status": "proved",
   "theorems": [
    "C30_gradient_sums_to_zero"
   ],
   "note": ""
  },
  {
   "property": "C31",
   "status": "proved",
   "theorems": [
    "C31_paint_distributed",
    "C31_paint_default",
    "C31_decomposition_independent",
    "C31_mass_conserved",
    "C31_paint_no_room_refuted"
   ],
   "note": "includes transforms, hold, gradient, hsml up to the routed extent; the room condition is needed"
  },
  {
   "property": "C32",
   "status": "proved",
   "theorems": [
    "C32_readout_distributed",
    "C32_readout_default",
    "C32_readout_no_room_refuted"
   ],
   "note": "the room condition is needed"
  },
  {
   "property": "C33",
   "status": "proved",
   "theorems": [
    "C33_paint_dual",
    "C33_readout_dual",
    "C33_gradient_dual",
    "C33_applies",
    "C33_readout_jvp_gradient_refuted",
    "C33_gradient_of_gradient_raises"
   ],
   "note": "with a layout from decompose or without one; readout_jvp ignores its gradient argument"
  },
  {
   "property": "C34",
   "status": "proved",
   "theorems": [
    "C34_upsample",
    "C34_decomposition_independent",
    "C34_constant",
    "C34_wide_window_refuted"
   ],
   "note": "windows of at most 3 cells; pcs is refuted"
  },
  {
   "property": "C35",
   "status": "proved",
   "theorems": [
    "C35_rescale",
    "C35_shift",
    "C35_paint_rescaled",
    "C35_paint_shifted",
    "C35_compose",
    "C35_period_refuted"
   ],
   "note": ""
  },
  {
   "property": "C36",
   "status": "proved",
   "theorems": [
    "C36_hermitian_history",
    "C36_set_then_get",
    "C36_range_refuted",
    "C36_component_refuted"
   ],
   "note": "indices within the mesh; beyond it the condition is refuted"
  },
  {
   "property": "C37",
   "status": "proved",
   "theorems": [
    "C37_unstored_mode",
    "C37_report_refuted"
   ],
   "note": "reports 0 instead of the value"
  },
  {
   "property": "C38",
   "status": "proved",
   "theorems": [
    "C38_ravel",
    "C38_unravel",
    "C38_roundtrip",
    "C38_length_refused"
   ],
   "note": "mpsort trusted to sort by key and to take by global index"
  },
  {
   "property": "C39",
   "status": "proved",
   "theorems": [
    "C39_resample",
    "C39_hermitian",
    "C39_halfway_refuted"
   ],
   "note": "even sizes; sizes Ndst < Nsrc < 2 Ndst on an axis stored in full are refuted"
  },
  {
   "property": "C40",
   "status": "proved",
   "theorems": [
    "C40_even_destination",
    "C40_odd_destination_raises",
    "C40_five_refuted",
    "C40_odd_source_refuted"
   ],
   "note": ""
  },
  {
   "property": "C41",
   "status": "proved",
   "theorems": [
    "C41_coordinates",
    "C41_odd",
    "C41_odd_size_refuted"
   ],
   "note": ""
  },
  {
   "property": "C42",
   "status": "proved",
   "theorems": [
    "C42_cnorm",
    "C42_cdot",
    "C42_odd_refuted",
    "C42_imaginary_refuted"
   ],
   "note": ""
  },
  {
   "property": "C43",
   "status": "proved",
   "theorems": [
    "C43_decompress_vjp",
    "C43_array_gradient_refuted"
   ],
   "note": ""
  },
  {
   "property": "C44",
   "status": "proved",
   "theorems": [
    "C44_c2r_r2c",
    "C44_r2c_c2r",
    "C44_zero_mode",
    "C44_c2r_vjp",
    "C44_r2c_vjp",
    "C44_plancherel",
    "C44_complex_inverse",
    "C44_cast",
    "C44_imaginary_refuted",
    "C44_real_round_trip",
    "C44_real_round_trip_complex"
   ],
   "note": "over any ring with roots of unity, and over the reals"
  },
  {
   "property": "C45",
   "status": "proved",
   "theorems": [
    "C45_uniform_grid"
   ],
   "note": ""
  },
  {
   "property": "C46",
   "status": "proved",
   "theorems": [
    "C46_cache_coherent"
   ],
   "note": ""
  },
  {
   "property": "C47",
   "status": "proved",
   "theorems": [
    "C47_home_rank_stores_particle",
    "C47_two_empty_blocks_refuted"
   ],
   "note": "at most one empty block per axis; with two the map is uninitialised"
  },
  {
   "property": "C48",
   "status": "proved",
   "theorems": [
    "C48_decomposition_independent",
    "C48_compression_independent",
    "C49_low_dimension"
   ],
   "note": ""
  },
  {
   "property": "C49",
   "status": "proved",
   "theorems": [
    "C49_hermitian",
    "C49_real_field",
    "C49_low_dimension",
    "C49_odd_refuted",
    "C49_non_cubic_refuted"
   ],
   "note": ""
  },
  {
   "property": "C50",
   "status": "proved",
   "theorems": [
    "C50_resolution_invariant",
    "C50_odd_refuted"
   ],
   "note": ""
  },
  {
   "property": "C51",
   "status": "proved",
   "theorems": [
    "C48_decomposition_independent",
    "C51_own_seed",
    "C51_split_last_axis_refuted",
    "C51_odd_refuted",
    "C51_non_cubic_refuted"
   ],
   "note": ""
  },
  {
   "property": "C52",
   "status": "proved",
   "theorems": [
    "C52_stream",
    "C52_range",
    "C52_seed_zero",
    "C52_seed_collision"
   ],
   "note": ""
  },
  {
   "property": "C53",
   "status": "proved",
   "theorems": [
    "C53_shells",
    "C53_injective",
    "C53_onto",
    "C53_closer",
    "C53_any_mesh",
    "C53_even_mesh",
    "C53_mesh_free",
    "C53_outside",
    "C53_other_half",
    "C53_odd_refuted"
   ],
   "note": ""
  },
  {
   "property": "C54",
   "status": "proved",
   "theorems": [
    "C54_truncate",
    "C54_zero_refuted"
   ],
   "note": ""
  },
  {
   "property": "C55",
   "status": "proved",
   "theorems": [
    "C55_no_deadlock",
    "C55_serial"
   ],
   "note": ""
  },
  {
   "property": "C56",
   "status": "proved",
   "theorems": [
    "C56_no_deadlock",
    "C56_values",
    "C56_left_over",
    "C56_mixed_refuted",
    "C56_crossed_refuted"
   ],
   "note": ""
  },
  {
   "property": "C57",
   "status": "proved",
   "theorems": [
    "C57_paint_rolls",
    "C57_readout_rolls"
   ],
   "note": ""
  },
  {
   "property": "C58",
   "status": "proved",
   "theorems": [
    "C58_downsample",
    "C58_conserves"
   ],
   "note": ""
  },
  {
   "property": "C59",
   "status": "proved",
   "theorems": [
    "C59_cdot"
   ],
   "note": "even last axis; C42_odd_refuted shows that this is needed"
  },
  {
   "property": "C60",
   "status": "proved",
   "theorems": [
    "C60_sample_terminates"
   ],
   "note": ""
  },
  {
   "property": "C61",
   "status": "proved",
   "theorems": [
    "C61_unitary",
    "C61_mean",
    "C61_thin_mesh_refuted"
   ],
   "note": ""
  },
  {
   "property": "C62",
   "status": "proved",
   "theorems": [
    "C62_get_nbits"
   ],
   "note": ""
  },
  {
   "property": "C63",
   "status": "proved",
   "theorems": [
    "C63_apply",
    "C63_real",
    "C63_complex",
    "C63_kinds"
   ],
   "note": ""
  },
  {
   "property": "C64",
   "status": "proved",
   "theorems": [
    "C64_csum",
    "C64_cmean",
    "C64_zero_mode"
   ],
   "note": ""
  },
  {
   "property": "C65",
   "status": "proved",
   "theorems": [
    "C65_preview",
    "C65_permuted_refuted"
   ],
   "note": ""
  },
  {
   "property": "C66",
   "status": "proved",
   "theorems": [
    "C66_ctranspose",
    "C66_negative",
    "C66_last_axis",
    "C66_negative_refuted"
   ],
   "note": ""
  },
  {
   "property": "C67",
   "status": "proved",
   "theorems": [
    "C67_full",
    "C67_gradient"
   ],
   "note": ""
  },
  {
   "property": "C68",
   "status": "proved",
   "theorems": [
    "C68_programs",
    "C68_r2c",
    "C68_c2r",
    "C68_cast"
   ],
   "note": ""
  },
  {
   "property": "C69",
   "status": "proved",
   "theorems": [
    "C69_resample",
    "C69_untransposed_refuted",
    "C69_shared_refuted"
   ],
   "note": ""
  },
  {
   "property": "C70",
   "status": "proved",
   "theorems": [
    "C70_decompose",
    "C70_coverage",
    "C70_binary64"
   ],
   "note": "rounding is any monotone function on Q; round64 is proved to be IEEE binary64 rounding to nearest even (Flocq) in FloatRound.v"
  },
  {
   "property": "C71",
   "status": "proved",
   "theorems": [
    "C71_isprimary",
    "C71_load",
    "C71_nonnegative",
    "C71_rounded_up_refuted"
   ],
   "note": ""
  },
  {
   "property": "C72",
   "status": "proved",
   "theorems": [
    "C72_nearest",
    "C72_negative_refuted"
   ],
   "note": "doubles are rounded to nearest even, no fused multiply-add"
  },
  {
   "property": "C73",
   "status": "proved",
   "theorems": [
    "C73_fwindow",
    "C73_tabulated"
   ],
   "note": "real arithmetic: sin is the exact sine"
  },
  {
   "property": "C74",
   "status": "proved",
   "theorems": [
    "C74_range",
    "C74_compensation",
    "C74_native",
    "C74_resized_refuted"
   ],
   "note": "real arithmetic; a complex amplitude is treated component by component"
  },
  {
   "property": "C75",
   "status": "proved",
   "theorems": [
    "C75_readout_moved",
    "C75_paint_moved",
    "C75_too_far_refuted"
   ],
   "note": "decompose at one set of positions, readout and paint at moved ones; every rank with its own smoothing; equality over Q"
  },
  {
   "property": "C76",
   "status": "proved",
   "theorems": [
    "C76_lic",
    "C76_decomposition_independent",
    "C76_empty_rank",
    "C76_local_maximum_refuted",
    "C76_small_box_refuted"
   ],
   "note": "the texture is given, one vector field per dimension, the square root is any function; equality over Q"
  },
  {
   "property": "C77",
   "status": "proved",
   "theorems": [
    "C77_paint",
    "C77_raise",
    "C77_readout",
    "C77_readout_raise",
    "C77_noncontiguous",
    "C77_ravel_refuted",
    "C77_last_cell_refuted",
    "C77_zero_period_refuted"
   ],
   "note": "numpy and numba version against the cic window, all chunk sizes; item size and strides of the mesh are arguments; equality over Q"
  },
  {
   "property": "C78",
   "status": "proved",
   "theorems": [
    "C78_rint",
    "C78_paint",
    "C78_raise",
    "C78_noncontiguous",
    "C78_shifted_refuted",
    "C78_readout_refuted"
   ],
   "note": "numba tsc painter against the tsc window with the affine translate -1; ties of rint included; equality over Q"
  },
  {
   "property": "C79",
   "status": "proved",
   "theorems": [
    "C79_paint",
    "C79_readout",
    "C79_frequency",
    "C79_odd_refuted",
    "C79_tsc_refuted"
   ],
   "note": "deprecated ParticleMesh: construction, decompose, paint, readout on all ranks against one process; the partition is an argument; equality over Q"
  },
  {
   "property": "C80",
   "status": "proved",
   "theorems": [
    "C80_dc",
    "C80_poisson",
    "C80_gaussian",
    "C80_constant",
    "C80_lanczos",
    "C80_trilinear",
    "C80_force",
    "C80_laplace_refuted",
    "C80_trilinear_refuted",
    "C80_odd_refuted"
   ],
   "note": "transfer functions on all ranks over the real numbers; the distribution of the modes is an argument; PowerSpectrum and Inspect not modelled"
  },
  {
   "property": "C81",
   "status": "proved",
   "theorems": [
    "C81_paint",
    "C81_readout",
    "C81_paint_cic",
    "C81_readout_cic",
    "C81_paint_decomposed",
    "C81_readout_decomposed",
    "C81_paint_cic_decomposed",
    "C81_readout_cic_decomposed",
    "C81_pcs_refuted"
   ],
   "note": "Jacobian-vector products against finite differences with a quadratic error, all ranks at once; masses as one array per rank; the numbers are rationals"
  },
  {
   "property": "C82",
   "status": "proved",
   "theorems": [
    "C82_add",
    "C82_multiply",
    "C82_residual",
    "C82_residual_value",
    "C82_assign",
    "C82_to_scalar",
    "C82_addmul",
    "C82_assign_component",
    "C82_assign_component_adjoint",
    "C82_dot",
    "C82_dot_refuted",
    "C82_dot_lengths",
    "C82_addmul_complex",
    "C82_addmul_complex_refuted",
    "C82_transfer_adjoint",
    "C82_transfer_derivative",
    "C82_transfer_hermitian",
    "C82_transfer_hermitian_refuted",
    "C82_multiply_complex_refuted",
    "C82_assign_component_refuted",
    "C82_lowpass_adjoint",
    "C82_lowpass_modes",
    "C82_lowpass_refuted",
    "C82_lowpass_rounded_refuted"
   ],
   "note": "statements of the deprecated engine over a commutative ring; the automatic differentiation library around them (abopt) is not part of this repository and not modelled"
  },
  {
   "property": "C83",
   "status": "proved",
   "theorems": [
    "C83_mean",
    "C83_paint_derivative",
    "C83_paint_adjoint",
    "C83_one_per_cell",
    "C83_readout",
    "C83_jvp_refuted"
   ],
   "note": "the paint, readout and decompose statements on the world model of C31; rational numbers; at least one particle"
  },
  {
   "property": "C84",
   "status": "proved",
   "theorems": [
    "C84_paint",
    "C84_raise",
    "C84_mass",
    "C84_linear",
    "C84_exact",
    "C84_constant",
    "C84_conserved",
    "C84_integral_refuted",
    "C84_cubic_refuted"
   ],
   "note": "the painter of lanczos.py for any kernel; linear is cic.py; mass and polynomial reproduction of linear and cubic; the integral is divided only once"
  },
  {
   "property": "C85",
   "status": "proved",
   "theorems": [
    "C85_call",
    "C85_compare",
    "C85_out",
    "C85_out_type",
    "C85_other",
    "C85_shapes",
    "C85_programs",
    "C85_rebind_refuted",
    "C85_imaginary_refuted",
    "C85_mixed_refuted",
    "C85_ranks_refuted"
   ],
   "note": "Any numpy function with one result on fields of one type and numbers, on all ranks, into a new or given field, in programs with the statements of C68. Methods of functions and several results are not modelled."
  },
  {
   "property": "C86",
   "status": "proved",
   "theorems": [
    "C86_programs",
    "C86_forces",
    "C86_round_trip",
    "C86_mean",
    "C86_normalised",
    "C86_destroyed_refuted",
    "C86_repaint_refuted"
   ],
   "note": "All sequences of method calls on one shared buffer and stack; painting and readout themselves are C77-C79, the transfer functions C80."
  },
  {
   "property": "C87",
   "status": "proved",
   "theorems": [
    "C87_adjoint",
    "C87_readout_rational",
    "C87_forces",
    "C87_momentum",
    "C87_single",
    "C87_integrators",
    "C87_real",
    "C87_window_refuted",
    "C87_real_part_refuted"
   ],
   "note": "forces of examples/nbody.py and the three integrators, any mesh, ranks and steps; the two refuted theorems show that the conditions are needed"
  },
  {
   "property": "C88",
   "status": "proved",
   "theorems": [
    "C88_create",
    "C88_defaults",
    "C88_refused",
    "C88_enough",
    "C88_reshape",
    "C88_round_trip",
    "C88_respawn",
    "C88_blocks_refuted"
   ],
   "note": "all sizes, ranks and process meshes with fewer axes than the mesh; the partition rule of pfft is trusted"
  },
  {
   "property": "C89",
   "status": "proved",
   "theorems": [
    "C89_modes",
    "C89_fields",
    "C89_short",
    "C89_scheme_refuted"
   ],
   "note": "all fields, times, functions F and meshes in exact arithmetic; the recurrence is that of the code, the documented scheme with twice the middle term is refuted"
  },
  {
   "property": "C90",
   "status": "proved",
   "theorems": [
    "C90_reversible",
    "C90_force",
    "C90_other_schemes_refuted",
    "C90_rounding_refuted"
   ],
   "note": "exact arithmetic; quad is any function that changes its sign with the direction; that no stored displacement is rounded is a hypothesis on the numbers written on the way forward"
  },
  {
   "property": "C91",
   "status": "proved",
   "theorems": [
    "C91_growth",
    "C91_uniform",
    "C91_free",
    "C91_quinn_refuted",
    "C91_free_refuted"
   ],
   "note": "exact arithmetic; relations between the growth functions of nbodykit and the linear force at the times used are hypotheses"
  },
  {
   "property": "C92",
   "status": "proved",
   "theorems": [
    "C92_weights",
    "C92_axis",
    "C92_first_cell",
    "C92_same_bits_refuted",
    "C92_gradient_refuted",
    "C92_lost_refuted"
   ],
   "note": "IEEE doubles as rationals rounded with Flocq semantics, no overflow; the additions to the canvas and their order are not part of the claim"
  },
  {
   "property": "C93",
   "status": "proved",
   "theorems": [
    "C93_difference",
    "C93_poisson",
    "C93_displacement",
    "C93_divisor",
    "C93_force",
    "C93_real",
    "C93_odd_refuted"
   ],
   "note": "even sizes for Poisson, any size for the finite difference; C93_real has no hypotheses on sine or roots"
  },
  {
   "property": "C94",
   "status": "proved",
   "theorems": [
    "C94_particles",
    "C94_measured",
    "C94_accepts",
    "C94_rejects",
    "C94_difference_void",
    "C94_to_scalar",
    "C94_half",
    "C94_void_case",
    "C94_atol_refuted",
    "C94_field",
    "C94_field_measured",
    "C94_field_verdicts"
   ],
   "note": "iff statements for particles and real fields; rtol >= 0 and atol > 0, both shown to matter"
  },
  {
   "property": "C95",
   "status": "proved",
   "theorems": [
    "C95_order"
   ],
   "note": "all lists of steps; linear force and factors in log a; the constant does not depend on the steps"
  },
  {
   "property": "C96",
   "status": "proved",
   "theorems": [
    "C96_values",
    "C96_own",
    "C96_field"
   ],
   "note": "all histories; rational coordinates as in C41"
  },
  {
   "property": "C97",
   "status": "proved",
   "theorems": [
    "C97_power",
    "C97_mask_refuted",
    "C97_rows_refuted",
    "C97_wout_refuted",
    "C97_plane_refuted"
   ],
   "note": "over the reals; what psout is, and four refutations of what the comments say"
  },
  {
   "property": "C98",
   "status": "proved",
   "theorems": [
    "C98_weights",
    "C98_axis",
    "C98_gradient",
    "C98_first_cell",
    "C98_same_bits_refuted",
    "C98_lost_refuted",
    "C98_lost_exact_refuted"
   ],
   "note": "IEEE doubles as rationals rounded with Flocq semantics, no overflow, no fused multiply-add; the additions to the canvas and their order are not part of the claim"
  },
  {
   "property": "C99",
   "status": "proved",
   "theorems": [
    "C99_modes",
    "C99_cells",
    "C99_decompress",
    "C99_factors",
    "C99_no_decompress_refuted",
    "C99_factors_refuted",
    "C99_dot_refuted"
   ],
   "note": "exact arithmetic over a commutative ring; how abopt composes the products of statements is an assumption of the model"
  },
  {
   "property": "C100",
   "status": "proved",
   "theorems": [
    "C100_real",
    "C100_cnorm",
    "C100_real_refuses",
    "C100_real_shapes",
    "C100_real_symmetric",
    "C100_complex",
    "C100_complex_refuses",
    "C100_complex_shapes",
    "C100_array_refuted",
    "C100_hang_refuted",
    "C100_repeated_refuted"
   ],
   "note": "exact arithmetic; arrays with more axes than the field are not modelled"
  },
  {
   "property": "C101",
   "status": "proved",
   "theorems": [
    "C101_decompose",
    "C101_coverage",
    "C101_home",
    "C101_primary",
    "C101_binary64",
    "C101_margin_refuted"
   ],
   "note": ""
  },
  {
   "property": "C102",
   "status": "proved",
   "theorems": [
    "C102_factors",
    "C102_converges"
   ],
   "note": "exact arithmetic; the force is any Lipschitz function of all displacements, the force() of the example on a mesh is not in it"
  },
  {
   "property": "C103",
   "status": "proved",
   "theorems": [
    "C103_decompose",
    "C103_too_many",
    "C103_lost",
    "C103_misplaced",
    "C103_load",
    "C103_layout"
   ],
   "note": "signed overflow taken as two-s complement; coordinates exact"
  },
  {
   "property": "C104",
   "status": "proved",
   "theorems": [
    "C104_multiples",
    "C104_average",
    "C104_nearest",
    "C104_linear",
    "C104_others"
   ],
   "note": "exact arithmetic"
  },
  {
   "property": "C105",
   "status": "proved",
   "theorems": [
    "C105_forces",
    "C105_ranks",
    "C105_integrators",
    "C105_room_refuted"
   ],
   "note": "exact arithmetic over any commutative ring that contains the rational numbers"
  },
  {
   "property": "C106",
   "status": "proved",
   "theorems": [
    "C106_paint",
    "C106_readout",
    "C106_far_refuted",
    "C106_long_refuted"
   ],
   "note": "exact arithmetic for the doubles; byte offsets, Nmesh and indices into window tables have no limits; the loop variable of the Cython layer (an int) is not modelled"
  },
  {
   "property": "C107",
   "status": "proved",
   "theorems": [
    "C107_sync",
    "C107_own",
    "C107_group",
    "C107_cotranspose",
    "C107_two_arrays_refuted"
   ],
   "note": "views and indices are abstract, indexing does not fail and shapes agree; the data of a push are taken at Isend; C56 gives the schedules"
  },
  {
   "property": "C108",
   "status": "proved",
   "theorems": [
    "C108_test",
    "C108_completes",
    "C108_two_ranks_refuted",
    "C108_late",
    "C108_late_refuted"
   ],
   "note": "model of C107; the rows of a two-dimensional array are slices of its cells; in C108_late MPI reads the array of a push when its message is received"
  },
  {
   "property": "C109",
   "status": "proved",
   "theorems": [
    "C109_names",
    "C109_case_of_letters",
    "C109_objects",
    "C109_smoothing",
    "C109_twins"
   ],
   "note": "lower and upper on ASCII letters; the tables of lanczos, acg and wavelet windows are arbitrary; objects with an __eq__ of their own that equal a name are not modelled"
  },
  {
   "property": "C110",
   "status": "proved",
   "theorems": [
    "C110_from_root",
    "C110_raise_shifts",
    "C110_nested_shifts",
    "C110_timers",
    "C110_total",
    "C110_reentered",
    "C110_reentered_refuted"
   ],
   "note": "decorated calls are the only communication and all ranks make the same top level calls; rank 0 does not wait in a broadcast; times are integers"
  },
  {
   "property": "C111",
   "status": "proved",
   "theorems": [
    "C111_operators",
    "C111_shapes",
    "C111_unary",
    "C111_equal",
    "C111_complex_operand",
    "C111_imaginary_refuted"
   ],
   "note": "numpy functions on elements are arguments; x * -1 + y = y - x and commutativity are premises (true of floating point numbers except for the sign of zero and nan); only numbers are broadcast"
  },
  {
   "property": "C112",
   "status": "proved",
   "theorems": [
    "C112_lanczos",
    "C112_lanczos_paint",
    "C112_kaiser",
    "C112_kaiser_paint",
    "C112_lanczos_real",
    "C112_lanczos_formula",
    "C112_lanczos_real_paint"
   ],
   "note": "next to paint, sinc, i0 and the root are functions on rationals with stated laws; lanczos also on reals with sinc itself; no rounding; kaiser for whole a"
  },
  {
   "property": "C113",
   "status": "proved",
   "theorems": [
    "C113_elements",
    "C113_errors"
   ],
   "note": "arrays are shape and elements in C order; integers are unbounded"
  }
 ]
}