{
 "claims": [
  {
   "property": "C01",
   "status": "proved",
   "theorems": [
    "grid_honours_arguments"
   ],
   "note": "Over the reals; operands are scalars or one entry per axis."
  },
  {
   "property": "C02",
   "status": "proved",
   "theorems": [
    "grid_coordinates_uniform",
    "grid_constructed_regular"
   ],
   "note": "For grids with one step per axis; grid_constructed_regular says when the constructor yields those."
  },
  {
   "property": "C03",
   "status": "proved",
   "theorems": [
    "grid_from_ranges",
    "grid_from_ranges_empty"
   ],
   "note": "is_range: monotone or ifftshifted uniform vector with non-zero step (one-point ranges included)."
  },
  {
   "property": "C04",
   "status": "proved",
   "theorems": [
    "grid_frequencies",
    "grid_frequency_index",
    "grid_frequencies_twice",
    "grid_wavenumbers",
    "grid_wavenumber_periodic"
   ],
   "note": ""
  },
  {
   "property": "C05",
   "status": "proved",
   "theorems": [
    "grid_add",
    "grid_mul",
    "grid_sub",
    "grid_div",
    "grid_neg",
    "grid_add_sub",
    "grid_mul_div"
   ],
   "note": ""
  },
  {
   "property": "C06",
   "status": "proved",
   "theorems": [
    "grid_views",
    "grid_project",
    "grid_project_out_of_range",
    "grid_transpose",
    "grid_transpose_twice",
    "grid_swapaxes",
    "grid_tensor_product"
   ],
   "note": ""
  },
  {
   "property": "C07",
   "status": "proved",
   "theorems": [
    "mutable_grid_assignment",
    "mutable_grid_history",
    "mutable_grid_equals_immutable",
    "mutable_grid_first"
   ],
   "note": ""
  },
  {
   "property": "C08",
   "status": "partial",
   "theorems": [
    "inplace_arithmetic_refuted",
    "inplace_division_refuted",
    "inplace_add_object_partial",
    "inplace_sub_object_partial",
    "inplace_mul_object_partial"
   ],
   "note": "REFUTED: the name is rebound to None (+=, -=, *=) or to an immutable grid (/=). Proved: the object itself is shifted/scaled for += -= *= (operands that fit the dtype)."
  },
  {
   "property": "C09",
   "status": "partial",
   "theorems": [
    "dim_add_keeps_elements",
    "dim_add_shape",
    "dim_remove_left",
    "dim_remove_left_empty_refuted",
    "dim_remove_right_refuted",
    "dim_remove_right_raises",
    "dim_remove_right_partial",
    "dim_left_to",
    "dim_right_to",
    "dim_to_axis_vector",
    "dim_to_axis_nonneg",
    "dim_to_axis_default",
    "dim_to_axis_negative_refuted"
   ],
   "note": "Adding axes, left removal (non-empty arrays), left_to/right_to and to_axis of vectors proved in full. REFUTED: removal on the right keeps |right| axes instead of dropping them; to_axis with a negative axis fails for rank >= 2; left removal of a non-singleton axis of an empty array does not raise."
  },
  {
   "property": "C10",
   "status": "proved",
   "theorems": [
    "absorbing_bound_extinction",
    "linear_bound_extinction",
    "linear_bound_accepts"
   ],
   "note": "Over the reals."
  },
  {
   "property": "C11",
   "status": "proved",
   "theorems": [
    "absorbing_bound_permittivity",
    "absorbing_bound_no_gain"
   ],
   "note": "Any complex background; principal square root."
  },
  {
   "property": "C12",
   "status": "proved",
   "theorems": [
    "fixed_point_is_solution",
    "solution_is_fixed_point",
    "fixed_point_is_solution_isotropic"
   ],
   "note": "Exact complex arithmetic; the numerical optimisation of alpha and beta is an arbitrary result. Derivatives are the spectral ones validated on plane waves under C26."
  },
  {
   "property": "C13",
   "status": "proved",
   "theorems": [
    "correction_never_grows",
    "correction_never_grows_anisotropic",
    "error_never_grows"
   ],
   "note": "The anisotropic version assumes that alpha exceeds the operator norm of the deviation, which the constructor estimates with mat3_eigh."
  },
  {
   "property": "C14",
   "status": "proved",
   "theorems": [
    "alpha_history",
    "alpha_history_source",
    "alpha_history_equation"
   ],
   "note": ""
  },
  {
   "property": "C15",
   "status": "proved",
   "theorems": [
    "iteration_effect",
    "first_update_accepted",
    "accepted_changes_shrink",
    "iterations_counted",
    "history_keeps_problem",
    "history_fixed_point"
   ],
   "note": "Exact arithmetic. An iteration can also raise ZeroDivisionError, exactly after an update that was exactly zero: see C73."
  },
  {
   "property": "C16",
   "status": "proved",
   "theorems": [
    "solve_is_run",
    "solve_limits",
    "solve_default_ends",
    "solve_maxiter_ends",
    "solve_function_is_method"
   ],
   "note": "The callback is an arbitrary function of an arbitrary world state and the Solution, which it may change; it may also raise."
  },
  {
   "property": "C17",
   "status": "partial",
   "theorems": [
    "solve_limits",
    "limits_ignored_refuted",
    "maxiter_one_refuted",
    "maxiter_zero_refuted"
   ],
   "note": "REFUTED: without callback argument rtol and maxiter have no effect (for every isotropic problem with a source maxiter=1 does not stop after one iteration); maxiter=0 does one. With callback=None the limits hold."
  },
  {
   "property": "C18",
   "status": "proved",
   "theorems": [
    "E_reads_back",
    "initial_field_reads_back",
    "source_reads_back",
    "j_reads_back",
    "source_keeps_E"
   ],
   "note": "Values of full shape; broadcasting on assignment is C52."
  },
  {
   "property": "C19",
   "status": "partial",
   "theorems": [
    "epsilon_read_partial",
    "epsilon_read_refuted",
    "epsilon_assign_partial",
    "epsilon_assign_refuted",
    "magnetic_epsilon_read_partial",
    "magnetic_epsilon_read_refuted",
    "epsilon_off_diagonal_refuted",
    "magnetic_epsilon_assign_partial",
    "magnetic_epsilon_assign_refuted"
   ],
   "note": "REFUTED: the value read is off by -alpha beta, always; assigning epsilon subtracts the susceptibility of the bound; in chiral media with a matrix permittivity and numbers for xi, zeta, and mu, xi zeta / mu is added to the off-diagonal elements. Assignment is right without bound. Magnetic and non-magnetic problems."
  },
  {
   "property": "C20",
   "status": "partial",
   "theorems": [
    "magnetic_fixed_point_maxwell_iff",
    "magnetic_fixed_point_maxwell_partial",
    "maxwell_solution_is_fixed_point_partial",
    "bianisotropic_maxwell_refuted"
   ],
   "note": "REFUTED for general bi-anisotropic media: a fixed point solves Maxwell equations exactly if xi mu^-1 + mu^-1 zeta commutes with the curl of the field. Holds for magnetic media with a uniform scalar coupling."
  },
  {
   "property": "C21",
   "status": "proved",
   "theorems": [
    "reported_B",
    "reported_H",
    "reported_H_magnetic",
    "reported_D_ampere",
    "reported_D_solution",
    "reported_D_magnetic"
   ],
   "note": ""
  },
  {
   "property": "C22",
   "status": "proved",
   "theorems": [
    "poynting_vector",
    "stress_tensor_symmetric",
    "torque_shear",
    "total_force_vanishes",
    "energy_density_solution"
   ],
   "note": ""
  },
  {
   "property": "C23",
   "status": "partial",
   "theorems": [
    "residue_partial",
    "residue_refuted"
   ],
   "note": "Holds after an iteration followed by iterations and reads. REFUTED after assigning E: the cached value is returned."
  },
  {
   "property": "C24",
   "status": "proved",
   "theorems": [
    "frequency_takes_precedence",
    "wavelength_takes_precedence",
    "wavenumber_otherwise",
    "wavenumbers_consistent",
    "vectorial_choice",
    "dtype_always_complex",
    "dtype_complex64",
    "dtype_as_given"
   ],
   "note": ""
  },
  {
   "property": "C25",
   "status": "proved",
   "theorems": [
    "ift_of_ft",
    "ft_of_ift",
    "ft_linear",
    "ift_linear",
    "ft_parseval",
    "ft_inner_product",
    "filter_is_circular_convolution"
   ],
   "note": "The transforms are modelled as the sums that numpy.fft documents, over exact complex numbers; the FFT algorithm itself is outside the model."
  },
  {
   "property": "C26",
   "status": "proved",
   "theorems": [
    "wavevectors_of_grid",
    "curl_of_plane_wave",
    "div_of_plane_wave",
    "div_of_curl",
    "curl_of_longitudinal",
    "curl_of_curl",
    "cross_is_cross_product",
    "cross_antisymmetric",
    "cross_is_orthogonal"
   ],
   "note": ""
  },
  {
   "property": "C27",
   "status": "proved",
   "theorems": [
    "projections_complementary",
    "projections_idempotent",
    "projections_orthogonal",
    "transversal_is_divergence_free",
    "curl_of_longitudinal",
    "uniform_field_is_longitudinal"
   ],
   "note": ""
  },
  {
   "property": "C28",
   "status": "proved",
   "theorems": [
    "mul_is_matrix_product",
    "mul_applies_matrix",
    "subtract_is_difference",
    "adjoint_is_adjoint",
    "inverse_is_inverse",
    "canonical_number",
    "canonical_grid",
    "canonical_column",
    "canonical_row",
    "canonical_matrix",
    "canonical_idempotent",
    "arrays_refine_tensors"
   ],
   "note": "For arrays in the canonical form; 3 x 3 problems."
  },
  {
   "property": "C29",
   "status": "partial",
   "theorems": [
    "polynomial_roots",
    "cubic_roots_error",
    "zero_polynomial_roots",
    "polynomial_value",
    "small_quadratic_refuted",
    "tiny_quadratic_refuted"
   ],
   "note": "Proved for polynomials with coefficients that are not so small that they are taken for zero, and to within 2 sqrt(eps) for all cubics. REFUTED for coefficients below sqrt(eps)."
  },
  {
   "property": "C30",
   "status": "proved",
   "theorems": [
    "matrix_eigenvalues",
    "matrix_eigenvalues_error",
    "determinant_eigenvalue",
    "diagonal_eigenvalues"
   ],
   "note": "Exact unless the eigenvalues are all within about sqrt(eps) of each other, within 2 sqrt(eps) otherwise."
  },
  {
   "property": "C31",
   "status": "proved",
   "theorems": [
    "load_default_returns_first_usable",
    "load_explicit_returns_first_usable",
    "load_choice_unique"
   ],
   "note": "For every history of config/load/list-creation calls (histories in which the JSON file, when consulted, holds a list of dictionaries, and explicit lists hold dictionaries; the other forms are C32)."
  },
  {
   "property": "C32",
   "status": "partial",
   "theorems": [
    "load_keeps_explicit_list_refuted",
    "load_keeps_configuration_refuted",
    "config_list_form_refuted",
    "load_single_dict_file_refuted"
   ],
   "note": "REFUTED: every load appends the fall-backs to the list of the caller / of config(); the documented config([..]) form makes load raise AttributeError; a single-dictionary JSON file makes load raise TypeError."
  },
  {
   "property": "C33",
   "status": "proved",
   "theorems": [
    "convert_succeeds",
    "convert_twice",
    "convert_is_transfer",
    "convert_singular_rejected"
   ],
   "note": "Over every field; integer arrays are C83, regularised conversion is not an involution and is not claimed."
  },
  {
   "property": "C34",
   "status": "proved",
   "theorems": [
    "quarters_are_blocks",
    "quarters_reassemble",
    "quarters_odd_rejected"
   ],
   "note": "For literal arrays and for operators that multiply as some array."
  },
  {
   "property": "C35",
   "status": "partial",
   "theorems": [
    "inv_without_noise",
    "inv_without_noise_finds",
    "inv_with_noise",
    "inv_square_shape",
    "inv_rectangular_refuted"
   ],
   "note": "Proved for square matrices given a singular value decomposition. REFUTED for rectangular matrices, for which inv raises an exception."
  },
  {
   "property": "C36",
   "status": "partial",
   "theorems": [
    "caching_transparent",
    "caching_evaluates_once",
    "caching_without_out_refuted"
   ],
   "note": "Proved when an array for the result is available, as in ScatteringMatrix. REFUTED for CachingMatrix._cache without out: TypeError on a cache hit and for zero vectors."
  },
  {
   "property": "C37",
   "status": "partial",
   "theorems": [
    "array_is_products",
    "array_columns",
    "elements_square_partial",
    "elements_rectangular_refuted",
    "elements_no_column_refuted",
    "adjoint_of_products"
   ],
   "note": "REFUTED: indexing of rectangular matrices raises a ValueError, and so does selecting no columns. Indices are integers, full slices and lists."
  },
  {
   "property": "C38",
   "status": "partial",
   "theorems": [
    "modes_propagate",
    "propagating_modes_listed",
    "modes_in_raster_order",
    "modes_units_refuted",
    "source_vector_plane_waves",
    "polarizations_transverse",
    "vector_field_vector",
    "empty_space_identity",
    "time_reversal"
   ],
   "note": "REFUTED for long wavelengths: the tolerance is absolute, so there are no modes for wavenumbers up to 1.5e-8. The rest is proved for vectors without negligible amplitudes (see C85) and two samples per wavelength (see C87)."
  },
  {
   "property": "C39",
   "status": "proved",
   "theorems": [
    "round125_of_zero",
    "round125_values",
    "round125_symmetric",
    "round125_increasing",
    "round125_stable",
    "round125_within_factor"
   ],
   "note": ""
  },
  {
   "property": "C40",
   "status": "partial",
   "theorems": [
    "adaptive_stops_only_for_a_reason",
    "adaptive_geometric_stop",
    "adaptive_reuse_starts_afresh",
    "adaptive_no_exception_partial",
    "adaptive_cap_refuted",
    "adaptive_never_stops_when_growing",
    "adaptive_no_exception_refuted"
   ],
   "note": "Proved: sound stopping, exact stopping iteration for geometric residues, reuse. REFUTED: the maximum iteration count is never enforced for growing residues; equal residues at two checks raise OverflowError/ValueError."
  },
  {
   "property": "C41",
   "status": "proved",
   "theorems": [
    "hsv2rgb_is_standard",
    "hsv_colour_range",
    "hsv2rgb_alpha"
   ],
   "note": ""
  },
  {
   "property": "C42",
   "status": "proved",
   "theorems": [
    "complex2rgb_colours",
    "complex2rgb_phase",
    "complex2rgb_in_range",
    "complex2rgb_magnitude",
    "complex2rgb_black",
    "complex2rgb_normalised"
   ],
   "note": ""
  },
  {
   "property": "C43",
   "status": "proved",
   "theorems": [
    "grid2extent_of_grid",
    "grid2extent_of_ranges"
   ],
   "note": ""
  },
  {
   "property": "C44",
   "status": "partial",
   "theorems": [
    "roll_translates",
    "roll_translates_axes",
    "roll_integer",
    "roll_sum",
    "roll_inverse",
    "roll_norm",
    "roll_plane_wave",
    "roll_linear",
    "roll_too_many_shifts",
    "roll_default_axes_refuted",
    "roll_ignores_small_refuted",
    "roll_long_array_refuted"
   ],
   "note": "Proved for shifts and phase steps above 1e-8. REFUTED: the right-most axes are the default, not the left-most as documented; small shifts, and shifts by 1 of arrays with more than 2 pi 1e8 values, are ignored."
  },
  {
   "property": "C45",
   "status": "partial",
   "theorems": [
    "register_best_whole",
    "register_displaced_partial",
    "register_shift_range",
    "register_left_refuted"
   ],
   "note": "The displacement modulo the shape, the factor, the image and the error are right. REFUTED: the reported shift is never within half the shape for displacements to the left, twice the size is added."
  },
  {
   "property": "C46",
   "status": "partial",
   "theorems": [
    "registration_original_partial",
    "registration_registered_partial",
    "registration_elements_refuted",
    "registration_add_refuted",
    "registration_fewer_refuted"
   ],
   "note": "Any history of reading and assigning shift. REFUTED for changes of the elements of shift, += on a Registration of a registered image, and shifts with fewer values."
  },
  {
   "property": "C47",
   "status": "partial",
   "theorems": [
    "propagation_history",
    "propagation_total",
    "propagation_group",
    "propagation_back",
    "propagation_magnitude",
    "propagation_dispersion",
    "spectrum_assignment",
    "short_distance_refuted"
   ],
   "note": "Any history of propagation and reading multiplies each component with the phase of the total distance, to within 1e-8. REFUTED as an exact statement: distances of up to 1e-8 are ignored when reading."
  },
  {
   "property": "C48",
   "status": "partial",
   "theorems": [
    "beam_positions",
    "vector_beam_positions",
    "beam_exit",
    "beam_field_again_refuted",
    "beam_sections_refuted"
   ],
   "note": "The first Beam.field() has slice i at first + i step, for scalar and vector beams. REFUTED: the second starts where the first ended, and the sections in list(beam) are all at the last slice."
  },
  {
   "property": "C49",
   "status": "partial",
   "theorems": [
    "beam_in_medium_partial",
    "vector_beam_in_medium_partial",
    "weak_medium_refuted",
    "small_steps_refuted"
   ],
   "note": "Proved, for scalar and vector beams, for steps above 1e-8, index variations above 1e-5 and fields above 1e-8; REFUTED below."
  },
  {
   "property": "C50",
   "status": "partial",
   "theorems": [
    "returned_arrays_kept_partial",
    "returned_arrays_kept_numpy",
    "returned_arrays_kept_torch",
    "work_arrays_invisible",
    "displacement_shared_refuted",
    "displacement_kept_refuted"
   ],
   "note": "All properties that return arrays, over all histories, without pyfftw and with torch; with pyfftw all but D and the divS of scalar problems. REFUTED for D with pyfftw: it returns the work array of the inverse transform."
  },
  {
   "property": "C51",
   "status": "proved",
   "theorems": [
    "no_source_no_field"
   ],
   "note": ""
  },
  {
   "property": "C52",
   "status": "partial",
   "theorems": [
    "E_takes_broadcast",
    "E_takes_number",
    "E_takes_vector",
    "E_takes_array_partial",
    "E_rejects_others_refuted",
    "source_takes_broadcast"
   ],
   "note": "REFUTED in part: arrays whose sizes divide those of the field are repeated instead of rejected."
  },
  {
   "property": "C53",
   "status": "partial",
   "theorems": [
    "grid_constructed_regular",
    "grid_coordinates_uniform",
    "grid_axis_unreadable_refuted"
   ],
   "note": "Proved when the constructor derives one step per axis. REFUTED: Grid([1,4], first=[0,0], last=[0,3], include_last=True) has 2 axes but only axis 0 can be read."
  },
  {
   "property": "C54",
   "status": "proved",
   "theorems": [
    "grid_extent_exact",
    "grid_extent_covered"
   ],
   "note": "Over the reals."
  },
  {
   "property": "C55",
   "status": "partial",
   "theorems": [
    "grid_honours_arguments",
    "grid_last_ignored_refuted",
    "grid_last_truncated_refuted",
    "grid_last_half_index_refuted"
   ],
   "note": "Holds when first is also given (grid_honours_arguments). REFUTED otherwise: a contradictory last is ignored, a half-integer step is truncated, include_last with center_at_index=False ends half a step early."
  },
  {
   "property": "C56",
   "status": "partial",
   "theorems": [
    "grid_defaults_refuted",
    "grid_satisfiable_refused_refuted"
   ],
   "note": "REFUTED: every call without shape, step and extent fails; satisfiable calls with integer arguments are refused."
  },
  {
   "property": "C57",
   "status": "partial",
   "theorems": [
    "grid_sub_sequence_refuted",
    "grid_div_sequence_refuted"
   ],
   "note": "REFUTED: TypeError for every list or tuple."
  },
  {
   "property": "C58",
   "status": "partial",
   "theorems": [
    "grid_ndim_argument_refuted"
   ],
   "note": "REFUTED: Grid(4, 1, ndim=3) reports 3 axes, g[1] is one coordinate and g + 0 has 1 axis."
  },
  {
   "property": "C59",
   "status": "partial",
   "theorems": [
    "mutable_grid_assignment",
    "mutable_grid_center_truncated_refuted"
   ],
   "note": "Holds for floating point grids. REFUTED: MutableGrid(4, 1).center = 0.5 reads back 0."
  },
  {
   "property": "C60",
   "status": "partial",
   "theorems": [
    "linear_bound_negative_step_refuted",
    "bound_between_negative_step_refuted",
    "linear_bound_scalar_grid_refuted",
    "linear_bound_shifted_grid_refuted"
   ],
   "note": "REFUTED in every case: negative steps give no absorption, scalar grids raise IndexError, fft-ordered grids exceed the maximum extinction."
  },
  {
   "property": "C61",
   "status": "partial",
   "theorems": [
    "round125_nearest_refuted",
    "round125_tiny_refuted"
   ],
   "note": "REFUTED: round125(3.3) is 5 and every 0 < v < 1e-10 becomes 1e-10; the factor bound in C39 is what holds."
  },
  {
   "property": "C62",
   "status": "partial",
   "theorems": [
    "rgb2hsv_inverts_partial",
    "rgb2hsv_inverts_refuted",
    "rgb2hsv_mirrors_hue_partial"
   ],
   "note": "REFUTED: the hue is mirrored inside its sextant; only multiples of 1/12 come back. Saturation and value are recovered."
  },
  {
   "property": "C63",
   "status": "partial",
   "theorems": [
    "hsv2rgb_negative_hue_refuted"
   ],
   "note": "REFUTED: hues in (-1/6, 0) give a negative green channel."
  },
  {
   "property": "C64",
   "status": "partial",
   "theorems": [
    "rgb2hsv_alpha_refuted"
   ],
   "note": "REFUTED: alpha takes part in the maximum and minimum over the channels."
  },
  {
   "property": "C65",
   "status": "partial",
   "theorems": [
    "complex2rgb_python_int_refuted"
   ],
   "note": "REFUTED for dtype=int; numpy integer types are covered by complex2rgb_in_range."
  },
  {
   "property": "C66",
   "status": "partial",
   "theorems": [
    "grid2extent_fft_order_refuted"
   ],
   "note": "REFUTED: the extent of an axis in numpy.fft order has width zero."
  },
  {
   "property": "C67",
   "status": "proved",
   "theorems": [
    "corrections_vanish"
   ],
   "note": ""
  },
  {
   "property": "C68",
   "status": "proved",
   "theorems": [
    "lossy_converges",
    "lossy_converges_anisotropic"
   ],
   "note": ""
  },
  {
   "property": "C69",
   "status": "proved",
   "theorems": [
    "power_is_conserved"
   ],
   "note": ""
  },
  {
   "property": "C70",
   "status": "partial",
   "theorems": [
    "div_poynting_partial",
    "div_poynting_refuted"
   ],
   "note": "REFUTED: divS is the divergence divided by the vacuum wavenumber."
  },
  {
   "property": "C71",
   "status": "partial",
   "theorems": [
    "scalar_derived_refuted"
   ],
   "note": "REFUTED: B, H and S are zero, divS, f and torque raise IndexError."
  },
  {
   "property": "C72",
   "status": "partial",
   "theorems": [
    "reported_D_ampere_refuted"
   ],
   "note": "REFUTED: the reported current density has the opposite sign."
  },
  {
   "property": "C73",
   "status": "partial",
   "theorems": [
    "exact_solution_iterates_refuted"
   ],
   "note": "REFUTED: ZeroDivisionError."
  },
  {
   "property": "C74",
   "status": "proved",
   "theorems": [
    "solve_ends",
    "solve_ends_anisotropic"
   ],
   "note": "Exact arithmetic; isotropic media with the alpha of the constructor, others under a condition on alpha."
  },
  {
   "property": "C75",
   "status": "proved",
   "theorems": [
    "solve_accurate"
   ],
   "note": "Exact arithmetic."
  },
  {
   "property": "C76",
   "status": "partial",
   "theorems": [
    "single_vector_refuted",
    "E_takes_vector"
   ],
   "note": "REFUTED: the vector is laid out along the last axis or rejected; shape (3, 1, ..., 1) works."
  },
  {
   "property": "C77",
   "status": "partial",
   "theorems": [
    "list_as_array_partial",
    "list_as_array_refuted"
   ],
   "note": "REFUTED: TypeError for Python floats, wrong values for ints."
  },
  {
   "property": "C78",
   "status": "partial",
   "theorems": [
    "first_source",
    "source_takes_broadcast",
    "source_replaceable_refuted"
   ],
   "note": "REFUTED after a number or a scalar field in a vectorial problem."
  },
  {
   "property": "C79",
   "status": "partial",
   "theorems": [
    "ldivide_solves_partial",
    "ldivide_scalar_refuted",
    "inverse_is_inverse"
   ],
   "note": "REFUTED for scalar fields as numerators."
  },
  {
   "property": "C80",
   "status": "partial",
   "theorems": [
    "dtype_two_values_refuted",
    "dtype_always_complex"
   ],
   "note": "REFUTED: extended precision complex sources."
  },
  {
   "property": "C81",
   "status": "partial",
   "theorems": [
    "ufunc_first_argument",
    "ufunc_later_argument_refuted",
    "ufunc_two_matrices_refuted"
   ],
   "note": "REFUTED: endless recursion unless the first argument is the only Matrix."
  },
  {
   "property": "C82",
   "status": "partial",
   "theorems": [
    "deposition_output_vector",
    "deposition_output_array_refuted"
   ],
   "note": "REFUTED: endless recursion for output functions with more than one axis."
  },
  {
   "property": "C83",
   "status": "partial",
   "theorems": [
    "convert_integer_array_refuted",
    "convert_is_transfer"
   ],
   "note": "REFUTED: inverses are truncated to integers."
  },
  {
   "property": "C84",
   "status": "partial",
   "theorems": [
    "no_array_refuted"
   ],
   "note": "REFUTED: ValueError."
  },
  {
   "property": "C85",
   "status": "partial",
   "theorems": [
    "small_vector_refuted",
    "small_vector_poisons_cache_refuted",
    "empty_space_identity",
    "caching_transparent"
   ],
   "note": "REFUTED: amplitudes of at most 1e-8 are ignored in the incident field, not in the source, so that empty space reflects; the cache keeps this."
  },
  {
   "property": "C86",
   "status": "partial",
   "theorems": [
    "planes_in_order",
    "planes_outside_boundary",
    "back_source_in_boundary_refuted"
   ],
   "note": "REFUTED for the back source: it is in the absorbing boundary unless the thickness is a whole number of steps."
  },
  {
   "property": "C87",
   "status": "partial",
   "theorems": [
    "source_vector_plane_waves",
    "coarse_grid_modes_refuted",
    "vector_field_vector"
   ],
   "note": "Proved for at least two samples per wavelength. REFUTED for coarser grids."
  },
  {
   "property": "C88",
   "status": "partial",
   "theorems": [
    "coefficients_unchanged_partial",
    "coefficients_unchanged_refuted"
   ],
   "note": "REFUTED when the leading coefficient counts as zero and the array already has the data type of the back-end."
  },
  {
   "property": "C89",
   "status": "partial",
   "theorems": [
    "polynomial_roots",
    "cubic_roots_error",
    "small_quadratic_refuted",
    "tiny_quadratic_refuted"
   ],
   "note": "REFUTED: the thresholds do not scale with the coefficients."
  },
  {
   "property": "C90",
   "status": "partial",
   "theorems": [
    "matrix_eigenvalues",
    "diagonal_eigenvalues",
    "fewer_axes_refuted"
   ],
   "note": "REFUTED: an exception when dimensions are left out."
  },
  {
   "property": "C91",
   "status": "partial",
   "theorems": [
    "evanescent_kept_refuted"
   ],
   "note": "REFUTED: evanescent components are kept without attenuation."
  },
  {
   "property": "C92",
   "status": "proved",
   "theorems": [
    "field_transverse"
   ],
   "note": "For real background wavenumbers."
  },
  {
   "property": "C93",
   "status": "partial",
   "theorems": [
    "field_is_superposition",
    "field_assignment",
    "spectrum_assignment",
    "weak_field_refuted"
   ],
   "note": "REFUTED for fields with a spectrum below 1e-8: read as zero, and lost in a medium."
  },
  {
   "property": "C94",
   "status": "partial",
   "theorems": [
    "beam_time_reversal_partial",
    "beam_retraced_partial",
    "vector_reversal_refuted"
   ],
   "note": "Proved for scalar fields and any sequence of slices of which the distances and index variations are above the thresholds; below these the fields are lost (weak_field_refuted). REFUTED for vector beams, of which the longitudinal part is discarded."
  },
  {
   "property": "C95",
   "status": "partial",
   "theorems": [
    "power_never_gained",
    "power_in_medium_partial",
    "power_conserved_partial",
    "vector_power_refuted",
    "propagation_magnitude"
   ],
   "note": "No gain: proved for scalar and vector beams, all histories, states and passive media. Conservation: proved for scalar beams above the thresholds, for any number of slices; REFUTED for vector beams."
  },
  {
   "property": "C96",
   "status": "partial",
   "theorems": [
    "roll_real_partial",
    "roll_integer_real",
    "roll_real_refuted"
   ],
   "note": "Proved for odd sizes and for integer shifts; REFUTED for fractional shifts of even sizes."
  },
  {
   "property": "C97",
   "status": "partial",
   "theorems": [
    "register_best_whole",
    "register_displaced_partial",
    "register_default_best",
    "register_default_displaced",
    "register_3d_refuted"
   ],
   "note": "Whole points in any number of dimensions, the default precision in one and two. REFUTED for three dimensions with the default precision."
  },
  {
   "property": "C98",
   "status": "partial",
   "theorems": [
    "register_precision_partial",
    "register_default_best",
    "register_default_displaced",
    "register_elsewhere_refuted",
    "register_high_precision_refuted"
   ],
   "note": "Precisions 1/(2m): the shift is a multiple of the precision and at least as good as all half-point shifts, and as all multiples of the precision within 3/4 of a point of the best half-point shift. REFUTED for other multiples of the precision: a better match elsewhere can be missed when it is between half points. REFUTED for precisions up to 1e-8."
  },
  {
   "property": "C99",
   "status": "partial",
   "theorems": [
    "register_displaced_partial",
    "register_weak_refuted",
    "register_zero_subject_refuted"
   ],
   "note": "REFUTED: the image is zero when the factor, or the overlap, counts as zero; nan for a zero subject."
  },
  {
   "property": "C100",
   "status": "proved",
   "theorems": [
    "work_arrays_invisible",
    "read_value"
   ],
   "note": "Documented behaviour of pyfftw, numpy and torch. The projections longitudinal_projection and transversal_projection of the backend, which the solver does not call, are not covered."
  },
  {
   "property": "C101",
   "status": "proved",
   "theorems": [
    "constructed_fixed_point",
    "constructed_never_grows",
    "constructed_corrections_vanish",
    "constructed_converges"
   ],
   "note": "Real, positive, uniform permeability mu with 800 sqrt(eps) mu^2 < 1 for the precision eps of the numbers; exact arithmetic apart from the thresholds of the root finder."
  },
  {
   "property": "C102",
   "status": "proved",
   "theorems": [
    "gain_free_not_flagged",
    "gain_flagged",
    "unflagged_gain_small"
   ],
   "note": "The tolerance is 3 sqrt(eps). gain_free_not_flagged is for non-magnetic media with a real uniform permeability."
  },
  {
   "property": "C103",
   "status": "partial",
   "theorems": [
    "gain_only_alpha_partial",
    "gain_only_grows_refuted",
    "gain_only_real_alpha_refuted"
   ],
   "note": "REFUTED: the margin of 0.05 is added to the negative imaginary part of alpha, which brings it closer to zero: corrections double with every iteration, or the operators are divided by zero."
  },
  {
   "property": "C104",
   "status": "proved",
   "theorems": [
    "magnetic_constructed_fixed_point",
    "magnetic_never_grows",
    "magnetic_corrections_vanish",
    "magnetic_converges"
   ],
   "note": "The medium dissipates: Im(E^H (eps E + xi H) + H^H (zeta E + mu H)) >= 0 for all E and H at each point. The precision eps of the numbers is such that 20 sqrt(2 sqrt(eps)) (1 + K)^2 < beta, K being the highest spatial frequency on the grid in units of k0 (this excludes most grids in single precision); exact arithmetic apart from the thresholds of the root finder."
  },
  {
   "property": "C105",
   "status": "proved",
   "theorems": [
    "materials_read",
    "materials_read_bound",
    "materials_read_scalar",
    "index_squared",
    "vacuum_by_default"
   ],
   "note": "Arrays without spatial axes for 3x3 matrices are not among the given forms. The conversion to the number type is the identity in the model."
  },
  {
   "property": "C106",
   "status": "partial",
   "theorems": [
    "magnetic_bound_partial",
    "magnetic_bound_refuted"
   ],
   "note": "REFUTED for scalar permeabilities: the number is added to all nine elements, so the permeability is singular outside the boundary."
  },
  {
   "property": "C107",
   "status": "partial",
   "theorems": [
    "negative_index_passive_partial",
    "negative_index_diverges_refuted"
   ],
   "note": "REFUTED: with an index that is negative everywhere (uniform), 0 < Im n < -Re n, a wave with the wave number of the medium grows geometrically, without any warning. Convergence when the sign of the index varies is a case of C104 (the permeability is then not uniform)."
  },
  {
   "property": "C108",
   "status": "partial",
   "theorems": [
    "uniform_permeability_partial",
    "lossy_permeability_refuted",
    "permeability_variation_refuted"
   ],
   "note": "REFUTED: only the real part of 1/mu is used in non-magnetic problems, and variations below the tolerance of allclose are ignored altogether."
  },
  {
   "property": "C109",
   "status": "proved",
   "theorems": [
    "superposition",
    "superposition_solution"
   ],
   "note": ""
  },
  {
   "property": "C110",
   "status": "partial",
   "theorems": [
    "reciprocity_partial",
    "reciprocity_refuted"
   ],
   "note": "REFUTED: for vector fields on grids of two or more dimensions with an even size, the Nyquist frequency (taken as negative only) breaks the symmetry, even in a uniform isotropic medium. Proved for scalar fields, one-dimensional grids and grids with odd sizes."
  },
  {
   "property": "C111",
   "status": "proved",
   "theorems": [
    "translation"
   ],
   "note": "Non-magnetic media with any permittivity tensor and uniform permeability."
  },
  {
   "property": "C112",
   "status": "proved",
   "theorems": [
    "unit_of_length"
   ],
   "note": ""
  },
  {
   "property": "C113",
   "status": "proved",
   "theorems": [
    "transverse_polarization"
   ],
   "note": ""
  },
  {
   "property": "C114",
   "status": "proved",
   "theorems": [
    "constant_axis"
   ],
   "note": "Non-magnetic media with any permittivity tensor and uniform permeability."
  },
  {
   "property": "C115",
   "status": "proved",
   "theorems": [
    "source_bounds_solution",
    "small_perturbation"
   ],
   "note": ""
  },
  {
   "property": "C116",
   "status": "proved",
   "theorems": [
    "isotropic_forms"
   ],
   "note": ""
  },
  {
   "property": "C117",
   "status": "partial",
   "theorems": [
    "float_points_ordered",
    "float_center_exact",
    "float_fft_origin",
    "float_points_symmetric",
    "float_first_is_point",
    "float_points_accurate",
    "float_points_distinct",
    "float_points_coincide_refuted"
   ],
   "note": "Proved on IEEE binary64 arithmetic (Flocq). Distinctness only when the step exceeds 16 unit roundoffs of the largest number involved. REFUTED in general: Grid(shape=4, step=1.0, center=2.0**53) has two equal points."
  },
  {
   "property": "C118",
   "status": "partial",
   "theorems": [
    "float_given_exact",
    "float_first_accepted",
    "float_extent_accepted",
    "float_extent_points",
    "float_linspace_exact",
    "float_linspace_refuted",
    "float_center_first_refuted",
    "float_decimal_refuted"
   ],
   "note": "REFUTED for first with last and for first with center: Grid(shape=49, first=0, last=1), Grid(shape=98, first=0, center=1) and Grid(first=0, last=0.3, step=0.1) raise ValueError. The other combinations of the statement are accepted with the stated accuracy."
  },
  {
   "property": "C119",
   "status": "partial",
   "theorems": [
    "float_views_exact",
    "float_frequencies",
    "float_extent_round_trip_refuted",
    "float_first_refuted",
    "float_frequencies_twice_refuted"
   ],
   "note": "REFUTED for round trips: three points of step 0.1 become four points when rebuilt from step and extent; Grid(shape=2, first=0.1, step=0.2).first is not 0.1; g.f.f differs from g for 49 points with step 1. Views are exact and frequency steps accurate."
  },
  {
   "property": "C120",
   "status": "partial",
   "theorems": [
    "torch_products",
    "torch_matrix_product",
    "torch_assigns_E",
    "torch_assigns_source_partial",
    "torch_same_refuted",
    "returned_arrays_kept_torch"
   ],
   "note": "Products of arrays with equal numbers of axes and equal inner sizes or a scalar factor; all assignments to E of up to two axes more than the grid; assignments to the source the first time or when it has the shape of the field. REFUTED for a number that replaces a number as source (numpy raises ValueError, torch accepts it), for fields with more axes, and for products in which only one inner size is 1."
  },
  {
   "property": "C121",
   "status": "partial",
   "theorems": [
    "product_into_right",
    "product_into_partial",
    "torch_product_into_refuted",
    "scalar_product_into_refuted"
   ],
   "note": "Holds for the returned array when the destination is the right factor, as the solver uses it. REFUTED: with a scalar factor the destination is multiplied by the left factor and the right factor is not used; the torch back-end leaves the destination unchanged for matrices."
  },
  {
   "property": "C122",
   "status": "partial",
   "theorems": [
    "torch_eigenvalues",
    "torch_eigenvalues_error",
    "torch_roots_partial",
    "torch_roots_real_parts",
    "torch_roots_refuted"
   ],
   "note": "Eigenvalues of Hermitian matrices, and polynomials with real roots. REFUTED for other polynomials: torch returns the real parts, which are not roots."
  },
  {
   "property": "C123",
   "status": "proved",
   "theorems": [
    "rounding_does_not_build_up",
    "rounding_adds_up",
    "correction_measures_error"
   ],
   "note": "Non-magnetic media, isotropic or anisotropic. The error per iteration is a parameter: its size for a given transform library is not derived."
  },
  {
   "property": "C124",
   "status": "proved",
   "theorems": [
    "convergence_speed",
    "iterations_independent_of_grid",
    "alpha_follows_contrast"
   ],
   "note": "Isotropic non-magnetic media with a lower bound on the absorption."
  },
  {
   "property": "C125",
   "status": "proved",
   "theorems": [
    "schedule_independent",
    "schedules_agree",
    "making_iterators",
    "iterator_ends_with_error"
   ],
   "note": ""
  },
  {
   "property": "C126",
   "status": "partial",
   "theorems": [
    "steps_counted",
    "obtaining_resets_refuted",
    "nested_loop_refuted"
   ],
   "note": "Holds as long as no other iterator makes a first step: the number counts the steps of all iterators since. REFUTED: the number is not reset by iter(), as documented, but by the first step; a loop that stops at a number of at least 3 and contains another loop over the same Solution goes on for ever (or raises an error)."
  },
  {
   "property": "C127",
   "status": "proved",
   "theorems": [
    "column_history_free",
    "columns_independent",
    "constructed_lossy"
   ],
   "note": "For any material the column depends on the material only; in lossy media every list of products returns and each column is exactly what it would be on its own.  In media without loss a rejected update can increase alpha for later columns (alpha is part of the material in column_history_free)."
  },
  {
   "property": "C128",
   "status": "proved",
   "theorems": [
    "scattering_linear",
    "column_accurate",
    "product_from_columns",
    "scattering_exists",
    "constructed_lossy"
   ],
   "note": "Vectors with amplitudes below 1e-8 on a side are dropped by the code (small_vector_refuted under C85), hence the condition audible; sources must not be weaker than the waves they make (well_laid)."
  },
  {
   "property": "C129",
   "status": "proved",
   "theorems": [
    "magnetic_solve_ends"
   ],
   "note": "From the constructor (constants chosen by the code) to the end of solve.  Media of which xi nu + nu zeta is neither zero nor uniform are excluded: for those the code does not solve the equations (C20)."
  },
  {
   "property": "C130",
   "status": "proved",
   "theorems": [
    "magnetic_solve_accurate"
   ],
   "note": "E and H; existence and uniqueness of the solution is part of the theorem."
  },
  {
   "property": "C131",
   "status": "partial",
   "theorems": [
    "mirror_image_partial",
    "mirror_symmetric_partial",
    "mirror_image_refuted"
   ],
   "note": "REFUTED for vector problems when the axis perpendicular to the mirror has an even number of points and the grid has more than one dimension: the highest frequency of an even axis is its own mirror image, so that the products of two components of the wave vector in curl curl do not change sign.  Proved for all other grids."
  },
  {
   "property": "C132",
   "status": "proved",
   "theorems": [
    "order_of_axes"
   ],
   "note": "Non-magnetic materials with loss (uniform permeability)."
  },
  {
   "property": "C133",
   "status": "partial",
   "theorems": [
    "float_bound_calculated",
    "float_bound_consistent",
    "float_between_placed",
    "float_extinction_limited",
    "float_inner_edge_refuted",
    "float_extinction_exceeded_refuted"
   ],
   "note": "REFUTED in two details, due to rounding: a sample at the inner edge is not always reported as between the boundaries (ten points at steps of 0.1 with boundaries of 0.4), and the extinction can exceed the given maximum by a rounding error.  Proved: both are finite and consistent with each other at every sample, the position of the inner edge and the maximum are correct up to rounding errors that are bounded explicitly."
  },
  {
   "property": "C134",
   "status": "partial",
   "theorems": [
    "magnetic_reciprocity_partial",
    "magnetic_reciprocity_refuted"
   ],
   "note": "REFUTED on grids with an even size: the curl of the Nyquist frequency, which is taken as negative only, is not symmetric, even in a uniform chiral medium. Proved for all grids with odd sizes."
  },
  {
   "property": "C135",
   "status": "proved",
   "theorems": [
    "source_bounds_fields",
    "small_magnetic_perturbation"
   ],
   "note": "The loss is that of E and H: Im(E^H D + H^H B) >= loss (|E|^2 + |H|^2)."
  },
  {
   "property": "C136",
   "status": "proved",
   "theorems": [
    "magnetic_translation"
   ],
   "note": "Whether a medium counts as magnetic depends, within the tolerances of allclose, on the permeability at the first point; media that change in this respect by translation are excluded."
  },
  {
   "property": "C137",
   "status": "proved",
   "theorems": [
    "periodic_structure"
   ],
   "note": "For every iteration, magnetic and non-magnetic. The background value alpha of both problems is an argument of the model (kappa, settled); it is determined from maxima over the same values."
  },
  {
   "property": "C138",
   "status": "proved",
   "theorems": [
    "homogeneous_vector",
    "homogeneous_scalar"
   ],
   "note": "About the limit of the iteration (computes)."
  },
  {
   "property": "C139",
   "status": "proved",
   "theorems": [
    "wavelength_and_index",
    "uniform_permeability"
   ],
   "note": "The source is that of the wave equation; the current density that is proportional to it is a times larger for the wavenumber k_0 / a."
  },
  {
   "property": "C140",
   "status": "proved",
   "theorems": [
    "magnetic_rounding",
    "magnetic_rounding_adds_up"
   ],
   "note": "For the media of magnetic_problem, for which the iteration converges to the solution of Maxwell equations."
  },
  {
   "property": "C141",
   "status": "partial",
   "theorems": [
    "magnetic_mirror_partial",
    "magnetic_mirror_refuted"
   ],
   "note": "REFUTED for axes with an even number of points, of which the highest frequency has only one sign: even in a uniform chiral medium the mirror image of the solution is not that of the mirrored problem. Proved for axes with an odd number of points."
  },
  {
   "property": "C142",
   "status": "proved",
   "theorems": [
    "magnetic_order_of_axes"
   ],
   "note": "The code must recognise both media as magnetic (is_magnetic), a hypothesis that is only needed for media at the threshold of allclose."
  },
  {
   "property": "C143",
   "status": "proved",
   "theorems": [
    "brighter_constructed",
    "brighter_history",
    "brighter_solve",
    "brighter_limits",
    "brighter_fields",
    "brighter_powers"
   ],
   "note": "With exact numbers. brighter_solve is for any callback that does not depend on the amplitude, brighter_limits says that those of rtol and maxiter are such. The constants alpha and beta that the constructor chooses do not depend on the source (Choice_Model)."
  },
  {
   "property": "C144",
   "status": "proved",
   "theorems": [
    "cached_products",
    "column_calculated_once"
   ],
   "note": "Vectors below the threshold are the subject of C85 (small_vector_poisons_cache_refuted)."
  },
  {
   "property": "C145",
   "status": "partial",
   "theorems": [
    "stored_array_partial",
    "stored_products_partial",
    "stored_ignored_without_caching",
    "stored_shape_partial",
    "stored_vector_refuted",
    "stored_sequence_refuted"
   ],
   "note": "REFUTED: sequences and functions raise an AttributeError although the documentation allows these, and a vector with as many elements as the matrix has rows is accepted and used as a matrix with equal rows. Proved for two-dimensional arrays."
  },
  {
   "property": "C146",
   "status": "partial",
   "theorems": [
    "array_columns_direct_partial",
    "array_out_refuted"
   ],
   "note": "REFUTED: the given array is left with the transposed matrix. What is returned is proved to be right."
  },
  {
   "property": "C147",
   "status": "partial",
   "theorems": [
    "entry_grid_partial",
    "entry_numbers_refuted",
    "entry_flat_refuted"
   ],
   "note": "REFUTED for grids that are constructed from numbers only, as Grid(100, 0.1): iteration is over points instead of axes, so that the squared wave vector is a single number for all of Fourier space; and for flat grids: the vectors broadcast along the last axis only. Proved for all other grids with non-zero steps."
  },
  {
   "property": "C148",
   "status": "partial",
   "theorems": [
    "entry_ranges",
    "entry_single_range",
    "bound_first_range_refuted",
    "bound_ranges_refused_refuted"
   ],
   "note": "REFUTED for boundaries: Bound does not unpack the sequence, so it has a one-dimensional grid of the first range, or raises a ValueError when the lengths differ. Proved for Solution."
  },
  {
   "property": "C149",
   "status": "proved",
   "theorems": [
    "arguments_solve_ends",
    "arguments_solve_accurate",
    "index_and_boundary_passive",
    "arguments_ranges"
   ],
   "note": "In exact arithmetic, with a constant real permeability and no callback that stops the iteration earlier. The source is the given one, or -i omega mu_0 j for a current density j; that sign is the subject of C72. The boundary is any AbsorbingBound, as LinearBound."
  },
  {
   "property": "C150",
   "status": "proved",
   "theorems": [
    "expressions_multiply",
    "expressions_refused"
   ],
   "note": "Exact arithmetic; the operators that Matrix inherits from scipy.sparse.linalg.LinearOperator are modelled after scipy 1."
  },
  {
   "property": "C151",
   "status": "partial",
   "theorems": [
    "adjoint_expression_partial",
    "adjoint_product_refuted",
    "rmatvec_refuted"
   ],
   "note": "REFUTED for products and powers, and for rmatvec and T: _adjoint returns an array instead of a LinearOperator, so scipy multiplies the adjoints of the factors elementwise, and rmatvec and T raise an AttributeError. Proved for sums, differences, and multiples."
  },
  {
   "property": "C152",
   "status": "partial",
   "theorems": [
    "beam_from_arguments_partial",
    "beam_through_arguments_partial",
    "grid_flags_refuted"
   ],
   "note": "REFUTED for grids with center_at_index=False or origin_at_center=False: these flags are discarded, so that the fields are calculated at points half a step away, or in another order. Proved for all other grids, for real wavenumbers and background indices, and distances and fields above the thresholds of the code."
  },
  {
   "property": "C153",
   "status": "proved",
   "theorems": [
    "same_wave_arguments",
    "beam_refused"
   ],
   "note": ""
  },
  {
   "property": "C154",
   "status": "proved",
   "theorems": [
    "magnetic_arguments_solve_ends",
    "magnetic_arguments_solve_accurate"
   ],
   "note": "In exact arithmetic, for the media for which C20 is proved: xi mu^-1 + mu^-1 zeta is a constant multiple of the identity, as for chiral media. The medium must exceed the thresholds with which the code recognises magnetic media. The optimised beta must not be too small for the precision. J is that of Ampere law, minus the current density that is given (C72)."
  },
  {
   "property": "C155",
   "status": "partial",
   "theorems": [
    "beam_media_partial",
    "transverse_functions_refuted",
    "volume_axis_refuted"
   ],
   "note": "REFUTED for functions of (y, x), which the documentation asks for: these raise a TypeError since they are called with three coordinates. REFUTED for arrays if the propagation axis is not the first: layers along the first axis are taken for layers along the propagation axis, and an array of layers along the propagation axis raises a ValueError if this is the last axis. Proved for all other forms, under the thresholds of C152."
  },
  {
   "property": "C156",
   "status": "partial",
   "theorems": [
    "equal_grids_partial",
    "equal_texts",
    "equal_reflexive_symmetric",
    "equal_transitive_partial",
    "equal_dimensions_refuted",
    "equal_hash_refuted"
   ],
   "note": "REFUTED for grids with different numbers of axes: a grid with a single axis equals all grids with this axis repeatedly, e.g. Grid(3) == Grid([3]) == Grid([3, 3]), which have other coordinates and hashes, so that equality is not transitive either, and comparing grids of two and three axes raises a ValueError. REFUTED for centres 0.0 and -0.0, that are equal but have different hashes. Proved for grids with the same number of axes, that are both made from vectors or both from numbers."
  },
  {
   "property": "C157",
   "status": "partial",
   "theorems": [
    "initial_field_ends",
    "initial_field_partial",
    "initial_field_closer",
    "initial_field_accurate",
    "initial_field_refuted"
   ],
   "note": "REFUTED without source: from a nonzero initial field, solve without limit on the iterations never returns, because the relative size of the update does not diminish while the field vanishes. Proved with a source: solve ends from all initial fields that are not farther from a solution than zero is, from all others it ends or raises a ZeroDivisionError because the field is exactly zero after an iteration; in absorbing media, all that it returns is close to the only solution. For electric problems, in exact arithmetic."
  },
  {
   "property": "C158",
   "status": "partial",
   "theorems": [
    "index_assign_partial",
    "index_matrix_refuted",
    "index_sign_refuted",
    "index_read_partial",
    "index_read_refuted"
   ],
   "note": "REFUTED: the value read is a root of the square minus alpha beta, at no point what was given (C19); a matrix is squared element by element, so that crystals with an oblique axis become another material; a negative index is taken as positive. With a bound, assigning is wrong by C19. Proved for numbers and diagonal matrices with a positive index, without bound."
  },
  {
   "property": "C159",
   "status": "partial",
   "theorems": [
    "colormap_interpolates",
    "colormap_default_partial",
    "colormap_single_refuted",
    "colormap_channels"
   ],
   "note": "REFUTED for a single colour: the map is made, but using it raises a ValueError. Proved for two to 2^53 colours that the default points are accepted in double precision; the interpolation in exact arithmetic. The behaviour of LinearSegmentedColormap is modelled as documented by matplotlib."
  },
  {
   "property": "C160",
   "status": "partial",
   "theorems": [
    "magnetic_initial_field_ends",
    "magnetic_initial_field_partial",
    "magnetic_initial_field_closer",
    "magnetic_initial_field_accurate",
    "magnetic_initial_field_refuted"
   ],
   "note": "REFUTED without current: an absorbing medium without current and a non-zero initial field never reaches a small tolerance. With a current it is proved to end; for initial fields farther from the solution than zero, a ZeroDivisionError when the field becomes exactly zero is not excluded."
  },
  {
   "property": "C161",
   "status": "partial",
   "theorems": [
    "scale_bar_partial",
    "scale_bar_absent",
    "scale_bar_unit_refuted",
    "scale_bar_tiny_refuted",
    "scale_bar_array_refuted",
    "scale_bar_again"
   ],
   "note": "REFUTED for the documented prefixes of units (the label of 1e-3 m is in m), for arrays of scales (ValueError) and for scales below 1e-10 (the bar is 1e-10). The documented meaning of white_background is the opposite of the code; proved is that the annotations contrast with the background. Calling it again draws everything twice."
  },
  {
   "property": "C162",
   "status": "partial",
   "theorems": [
    "import_partial",
    "import_broken_refuted",
    "import_broken_fftw_refuted",
    "import_type_error_refuted",
    "import_threads_refuted"
   ],
   "note": "REFUTED for packages that are installed but raise ImportError (only ModuleNotFoundError and TypeError are caught, and by the back-end only the former), and the variables OPENBLAS_NUM_THREADS, OMP_NUM_THREADS and MKL_NUM_THREADS of the user are overridden. Proved when every package works or is absent."
  },
  {
   "property": "C163",
   "status": "partial",
   "theorems": [
    "reuse_ends_partial",
    "reuse_accurate",
    "reuse_iterates",
    "reuse_refuted"
   ],
   "note": "REFUTED after the source is switched off: solve never returns without a limit on the number of iterations. A further solve raises ZeroDivisionError when the last change was exactly zero (C73). Sources of the full shape (C78)."
  },
  {
   "property": "C164",
   "status": "partial",
   "theorems": [
    "magnetic_reuse_ends_partial",
    "magnetic_reuse_accurate",
    "magnetic_reuse_iterates",
    "magnetic_reuse_refuted"
   ],
   "note": "REFUTED after the source is switched off: solve never returns without a limit on the number of iterations. A further solve raises ZeroDivisionError when the last change was exactly zero (C73). Sources of the full shape (C78); the hypotheses on the materials are those of C154."
  },
  {
   "property": "C165",
   "status": "partial",
   "theorems": [
    "swap_accurate_partial",
    "swap_ends_partial",
    "swap_bound_refuted"
   ],
   "note": "Holds without an absorbing bound. REFUTED with one: the setter subtracts the susceptibility of the bound instead of adding it (C19), so the field returned is that for another medium. Sources of the full shape (C78); a further solve raises ZeroDivisionError when the last change was exactly zero (C73)."
  },
  {
   "property": "C166",
   "status": "proved",
   "theorems": [
    "reported_power",
    "power_is_absorbed"
   ],
   "note": ""
  },
  {
   "property": "C167",
   "status": "proved",
   "theorems": [
    "homogeneous_chiral"
   ],
   "note": ""
  },
  {
   "property": "C168",
   "status": "proved",
   "theorems": [
    "magnetic_forms",
    "magnetic_or_not"
   ],
   "note": ""
  },
  {
   "property": "C169",
   "status": "partial",
   "theorems": [
    "replace_accurate_partial",
    "replace_ends_partial",
    "replace_bound_refuted"
   ],
   "note": "Holds without an absorbing bound. REFUTED with one: the setter subtracts the susceptibility of the bound instead of adding it (C19), so the fields returned are those for another medium. Sources of the full shape (C78); a further solve raises ZeroDivisionError when the last change was exactly zero (C73)."
  },
  {
   "property": "C170",
   "status": "partial",
   "theorems": [
    "image_hsv2rgb_parts",
    "image_broadcast",
    "image_hsv2rgb_pixels",
    "image_hsv2rgb_errors",
    "image_rgb2hsv_pixels_partial",
    "image_rgb2hsv_parts_partial",
    "image_rgb2hsv_errors",
    "image_rgb2hsv_alpha_refuted",
    "image_round_trip_partial"
   ],
   "note": "hsv2rgb is as claimed. REFUTED for rgb2hsv: an alpha channel that is not of the full shape, such as a number, raises a ValueError, although it is broadcast first; and the fourth channel of a stacked image is dropped, though it takes part in the maximum and the minimum (C64). After a round trip the hue is mirrored in its sextant (C62)."
  },
  {
   "property": "C171",
   "status": "partial",
   "theorems": [
    "image_bytes_partial",
    "image_bytes_refuted"
   ],
   "note": "REFUTED: the difference of two channels wraps around at 256, so the hue is wrong exactly for colours of which the channels increase going around from red to green to blue and the largest minus the least channel does not divide 256. Saturation and value are right."
  },
  {
   "property": "C172",
   "status": "proved",
   "theorems": [
    "magnetic_constant_axis"
   ],
   "note": "The limit of the iterations is compared; for media that are not magnetic see C114."
  },
  {
   "property": "C173",
   "status": "proved",
   "theorems": [
    "polarizations_do_not_mix"
   ],
   "note": "For every iteration and every branch of the solver; no convergence is assumed."
  },
  {
   "property": "C174",
   "status": "partial",
   "theorems": [
    "statements_iterate",
    "interrupted_states",
    "interrupted_reads",
    "interrupted_arrays_kept",
    "interrupted_iterates",
    "interrupted_ends_partial",
    "interrupted_accurate",
    "interrupted_refuted"
   ],
   "note": "Proved for all histories with interruptions at any statement: an interrupted iteration leaves the Solution as before, as after, or as after but with the norm of the previous update; without gain no later update is refused because of that, and solve is as accurate as without interruptions. REFUTED for iterations whose update is refused (gain): the operators are replaced attribute by attribute, so that an interruption in between leaves a Solution with a source that is two thirds of the one assigned, at unchanged E and epsilon (interrupted_refuted). interrupted_ends_partial has the ZeroDivisionError exceptions of C163. The new alpha and the operators made from it are set in one step in the model."
  },
  {
   "property": "C175",
   "status": "proved",
   "theorems": [
    "stopped_iteration",
    "stopped_products",
    "stopped_array",
    "stopped_once",
    "stopped_progress",
    "stopped_given",
    "stopped_switch"
   ],
   "note": "The values of later products are proved for absorbing media; with gain an iteration whose update is refused can be interrupted half-way through the replacement of the operators (C174)."
  },
  {
   "property": "C176",
   "status": "partial",
   "theorems": [
    "gpu_numbered_partial",
    "gpu_absent",
    "gpu_any",
    "cpu_plain",
    "gpu_there",
    "cpu_zero_refuted",
    "gpu_broken_refuted"
   ],
   "note": "REFUTED for the name cpu:0, which is not understood so that the GPU is used, and for a GPU that does not work and is asked for by its number: only the device cuda is tested by the constructor, so that the back-end is loaded and fails later. Proved: GPUs with a number, absent GPUs, the default device and the CPU by its plain name."
  },
  {
   "property": "C177",
   "status": "partial",
   "theorems": [
    "scalar_uniform_partial",
    "scalar_permeability_refuted",
    "scalar_unsettled_refuted"
   ],
   "note": "REFUTED for permeabilities that vary: the curl of a field with a single component is zero in the back-end, so that the iteration converges to the solution for a uniform permeability 1/beta where beta is the constant on which the optimisation settled. Proved for uniform permeabilities. For the vector field along a missing axis see C113 and C104."
  },
  {
   "property": "C178",
   "status": "partial",
   "theorems": [
    "dtype_works_partial",
    "dtype_empty_partial",
    "dtype_kept_partial",
    "dtype_read_partial",
    "dtype_ignored_refuted",
    "dtype_default_refuted",
    "dtype_empty_refuted"
   ],
   "note": "REFUTED: with a field or spectrum the arguments dtype and vectorial are ignored, fields of single precision are stored in double precision, and a section without field is of real numbers, so that it cannot be read once it was propagated. Proved: sections with a field or spectrum never fail because of their types and stay complex, and scalar spectra keep their precision in uniform media."
  },
  {
   "property": "C179",
   "status": "partial",
   "theorems": [
    "drift_none_partial",
    "drift_each_refuted",
    "drift_gain_refuted"
   ],
   "note": "REFUTED for Magnetic bounds: every assignment subtracts their susceptibility from the permeability, so that the first takes the boundary away and the second makes it amplify. Proved for bounds that are not Magnetic (the permittivity of the bound being subtracted, see C19), for any number of assignments."
  },
  {
   "property": "C180",
   "status": "proved",
   "theorems": [
    "ranges_reproduced",
    "ranges_exact_refuted",
    "ranges_overflow_refuted"
   ],
   "note": "The other two theorems show that the tolerance and the restriction to moderate numbers are needed: the points of 0.1 * np.arange(4) are not reproduced exactly, and two finite numbers of which the difference overflows yield a grid of NaNs."
  },
  {
   "property": "C181",
   "status": "partial",
   "theorems": [
    "scratch_curl",
    "scratch_div",
    "scratch_projection_partial",
    "scratch_projection_refuted",
    "scratch_cross_partial",
    "scratch_cross_refuted",
    "scratch_shapes_partial",
    "scratch_shapes_refuted"
   ],
   "note": "REFUTED: the cross product with a field of fewer components subtracts from uninitialised memory; with PyTorch the projection of the work array array_ft_input itself loses its uniform part; after a first projection of a field with a singleton axis (which fails), all later projections fail too, although such fields are accepted after a first one of the shape of the grid. Proved: the curl and divergence for all contents of memory, the cross product of fields with equal numbers of components, and the projection for all contents of the work arrays, also of the work array itself with numpy."
  },
  {
   "property": "C182",
   "status": "partial",
   "theorems": [
    "constructed_matrix_partial",
    "constructed_square_partial",
    "constructed_rejected",
    "constructed_square_refuted",
    "constructed_matrix_refuted",
    "constructed_function_refuted"
   ],
   "note": "REFUTED: SquareMatrix only compares the number of columns with its side, so an array that is not square is accepted with its number of columns as side, and no vector can be multiplied; Matrix accepts any shape for any array; functions are documented but never work. Holds whenever the given shape is that of the array, or none is given."
  },
  {
   "property": "C183",
   "status": "partial",
   "theorems": [
    "elements_kept_partial",
    "elements_outside",
    "elements_complex_refuted",
    "elements_integer_refuted",
    "elements_lists_refuted",
    "elements_shared_refuted"
   ],
   "note": "REFUTED: the dtype argument (complex by default) is not applied to the array, so matrices made of real numbers lose or reject complex values and those of integers truncate; a Matrix of nested lists rejects assignments; and the array is shared with the caller. Holds for all histories of numbers that the type of the array can hold."
  },
  {
   "property": "C184",
   "status": "partial",
   "theorems": [
    "assigned_completely",
    "interrupted_E",
    "interrupted_source",
    "interrupted_E_refuted",
    "interrupted_epsilon_partial",
    "interrupted_epsilon_source",
    "interrupted_epsilon_refuted",
    "interrupted_epsilon_recovery"
   ],
   "note": "REFUTED: an interrupted assignment of the permittivity can leave the source scaled, and assigning the permittivity again keeps it so; and an interrupted assignment of E can leave the norm of the last update, so that the next iteration is refused. Repeating an interrupted assignment of E or of the source makes good; so does assigning first the permittivity and then the source, in media that are not magnetic."
  },
  {
   "property": "C185",
   "status": "partial",
   "theorems": [
    "section_unit_partial",
    "beam_unit_partial",
    "section_unit_refuted"
   ],
   "note": "REFUTED: distances below 1e-8 are taken for zero, whatever the wavelength, so that a step of 10 nm is ignored in metres and not in micrometres. Proved for scalar and vector beams with complex wavenumbers when the distances are larger than 1e-8 in both units."
  },
  {
   "property": "C186",
   "status": "partial",
   "theorems": [
    "displaced_section_partial",
    "displaced_beam_partial",
    "displaced_beam_refuted"
   ],
   "note": "REFUTED: in media with a contrast below 1e-5 only the refractive index at the first point counts, so that the phase depends on the position. Proved for all media that are uniform or have more contrast with respect to each of their points, whatever the distances and however weak the field."
  },
  {
   "property": "C187",
   "status": "partial",
   "theorems": [
    "mirrored_section_partial",
    "mirrored_beam_partial",
    "symmetric_beam",
    "mirrored_vector_refuted"
   ],
   "note": "REFUTED for vector fields with an even number of points along the axis: the highest spatial frequency has one sign only. Proved without further restrictions for scalar fields, and for vector fields with an odd number of points."
  },
  {
   "property": "C188",
   "status": "partial",
   "theorems": [
    "superposed_spectrum",
    "superposed_assigned_spectrum",
    "superposed_field_partial",
    "superposed_media_partial",
    "superposed_field_refuted"
   ],
   "note": "REFUTED for weak fields: a field of which the spectrum is nowhere above 1e-8 reads as zero, and so it is not additive. Proved for the spectra of all fields, strong or weak, in media without structure; and for spectra and fields in all media when the wavenumber of the background is real and none of the three spectra is that weak."
  },
  {
   "property": "C189",
   "status": "proved",
   "theorems": [
    "reordered_section",
    "reordered_slices"
   ],
   "note": "For every sequence of exchanges of successive axes, which gives every order. No restrictions on the strength of fields, the contrast of media, and distances; absorbing backgrounds included."
  },
  {
   "property": "C190",
   "status": "partial",
   "theorems": [
    "periodic_bound_everywhere_partial",
    "float_periodic_bound_everywhere",
    "periodic_bound_descending_refuted",
    "periodic_bound_rolled_refuted"
   ],
   "note": "REFUTED for grids with a negative step and for grids with the origin at the first index along an axis of two or more points: no sample is between the boundaries. Proved for increasing coordinates, exactly and in double precision."
  },
  {
   "property": "C191",
   "status": "proved",
   "theorems": [
    "fields_stay_close",
    "spectra_stay_close",
    "beam_errors_add",
    "fields_drift_apart"
   ],
   "note": "The last theorem shows that the term of 1e-8, due to the level below which spectra are neglected, cannot be left out. Real wavenumbers in the background."
  },
  {
   "property": "C192",
   "status": "proved",
   "theorems": [
    "polarised_section",
    "polarised_slices"
   ],
   "note": ""
  },
  {
   "property": "C193",
   "status": "partial",
   "theorems": [
    "repeated_beam_partial",
    "repeated_spectrum_partial",
    "repeated_beam_spectrum",
    "repeated_beam_bounded",
    "repeated_beam_refuted"
   ],
   "note": "REFUTED for weak fields: a spectrum of at most 1e-8 reads as zero, and that of more periods is larger. Proved for fields that are not weak in any slice and real wavenumbers, and without these conditions for the spectrum in media without structure. For fields of any strength behind slices without gain it is proved to within the tolerances of C194."
  },
  {
   "property": "C194",
   "status": "proved",
   "theorems": [
    "neglect_bounded",
    "neglect_bounded_total",
    "neglect_bounded_field"
   ],
   "note": "Real wavenumbers in the background; exact real arithmetic otherwise. That the terms cannot be left out is shown with C93, C94 and C191."
  },
  {
   "property": "C195",
   "status": "proved",
   "theorems": [
    "media_errors_bounded",
    "index_errors_bounded",
    "media_errors_bounded_field"
   ],
   "note": "Real wavenumbers in the background."
  },
  {
   "property": "C196",
   "status": "proved",
   "theorems": [
    "slices_divided",
    "slices_converge",
    "slices_converge_field"
   ],
   "note": "Real wavenumbers in the background. For media that do not change within a layer."
  },
  {
   "property": "C197",
   "status": "proved",
   "theorems": [
    "smooth_medium_converges",
    "smooth_medium_converges_field"
   ],
   "note": "Real wavenumbers in the background."
  },
  {
   "property": "C198",
   "status": "partial",
   "theorems": [
    "background_choice_partial",
    "background_choice_refuted"
   ],
   "note": "REFUTED: diffraction is always that of the background, so that a homogeneous medium, once given as the background and once as a medium in another background, can give opposite fields for tilted waves. Proved: the spectra differ, relative to the field in front, by at most T / (k0 min(n0, n1)) times the total thickness, for squared transverse wavenumbers up to T, apart from what is neglected (C194). Scalar fields."
  },
  {
   "property": "C199",
   "status": "proved",
   "theorems": [
    "uniform_tint",
    "uniform_tint_field",
    "lambert_beer"
   ],
   "note": "Real wavenumbers in the background."
  },
  {
   "property": "C200",
   "status": "proved",
   "theorems": [
    "beam_reciprocity",
    "beam_reciprocity_vector"
   ],
   "note": "Vector fields on odd numbers of points; real wavenumbers in the background."
  },
  {
   "property": "C201",
   "status": "proved",
   "theorems": [
    "overlap_conserved",
    "norm_conserved"
   ],
   "note": "Scalar fields (vector beams lose power by their projection: C95); real wavenumbers in the background."
  },
  {
   "property": "C202",
   "status": "proved",
   "theorems": [
    "linear_bound_sides",
    "absorbing_bound_sides"
   ],
   "note": "Note that a vector with a thickness per axis is not accepted for three axes, and is that of the front and back for two."
  },
  {
   "property": "C203",
   "status": "partial",
   "theorems": [
    "operands_partial",
    "operands_refuted",
    "operands_axes_refuted"
   ],
   "note": "REFUTED for grids with a single axis: when made from numbers, only the first element of the operand is used, and when made from sequences the result has an axis for each element (operands_axes_refuted). Proved for grids with two or more axes, and for all operands that fit."
  }
 ]
}