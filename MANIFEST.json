{
 "claims": [
  {
   "property": "C01",
   "status": "proved",
   "theorems": [
    "C01_rigid",
    "C01_orientation",
    "C01_centre",
    "C01_axis",
    "C01_derotate_undoes",
    "C01_derotate_length",
    "C01_derotate_inverse",
    "C01_no_angle"
   ],
   "note": ""
  },
  {
   "property": "C02",
   "status": "proved",
   "theorems": [
    "C02_same_ellipse",
    "C02_identity_below_one",
    "C02_to_elliptical"
   ],
   "note": ""
  },
  {
   "property": "C03",
   "status": "proved",
   "theorems": [
    "C03_pixel_centres",
    "C03_spacing_and_symmetry",
    "C03_default_square"
   ],
   "note": ""
  },
  {
   "property": "C04",
   "status": "proved",
   "theorems": [
    "C04_plane",
    "C04_world"
   ],
   "note": ""
  },
  {
   "property": "C05",
   "status": "proved",
   "theorems": [
    "C05_pixel_plane",
    "C05_plane_pixel",
    "C05_pixel_world",
    "C05_singular",
    "C05_reference"
   ],
   "note": ""
  },
  {
   "property": "C06",
   "status": "proved",
   "theorems": [
    "C06_polynomial",
    "C06_constant"
   ],
   "note": ""
  },
  {
   "property": "C07",
   "status": "proved",
   "theorems": [
    "C07_knots",
    "C07_continuously_differentiable",
    "C07_straight_line"
   ],
   "note": ""
  },
  {
   "property": "C08",
   "status": "partial",
   "theorems": [
    "C08_above_const_partial",
    "C08_above_linear_partial",
    "C08_above_extrapolate_partial",
    "C08_below_const_refuted",
    "C08_below_linear_refuted",
    "C08_below_extrapolate_refuted"
   ],
   "note": "True above the last knot, false below the first one in all three modes (refuted theorems): index -1 wraps to the last knot and the const and linear modes test only the upper end."
  },
  {
   "property": "C09",
   "status": "proved",
   "theorems": [
    "C09_pixel_centres",
    "C09_no_overshoot",
    "C09_affine",
    "C09_nearest",
    "C09_zeros_outside",
    "C09_clamp",
    "C09_errors"
   ],
   "note": ""
  },
  {
   "property": "C10",
   "status": "proved",
   "theorems": [
    "C10_voxel_centres",
    "C10_no_overshoot",
    "C10_affine",
    "C10_nearest",
    "C10_zeros_outside",
    "C10_errors"
   ],
   "note": ""
  },
  {
   "property": "C11",
   "status": "proved",
   "theorems": [
    "C11_supplied_data",
    "C11_true_derivatives",
    "C11_errors"
   ],
   "note": ""
  },
  {
   "property": "C12",
   "status": "partial",
   "theorems": [
    "C12_actual_default_deflection_partial",
    "C12_actual_kernels_partial",
    "C12_deflection_refuted",
    "C12_value_refuted",
    "C12_supplied_affine_partial"
   ],
   "note": "False of the code: the default derivative estimates have the wrong sign and exchanged axes (refuted theorems, and the exact wrong deflection for every affine map). With derivative maps supplied, affine maps are reproduced."
  },
  {
   "property": "C13",
   "status": "proved",
   "theorems": [
    "C13_sum",
    "C13_reduce",
    "C13_chunks"
   ],
   "note": ""
  },
  {
   "property": "C14",
   "status": "proved",
   "theorems": [
    "C14_batchedplane"
   ],
   "note": ""
  },
  {
   "property": "C15",
   "status": "partial",
   "theorems": [
    "C15_distinct_refuted",
    "C15_members_partial",
    "C15_two_partial"
   ],
   "note": "Distinctness is false of the code (refuted theorem: [0,5,10], first mean 0, k=3 gives 10 twice). Proved: k members of the input for every k; distinct and farthest for k=2."
  },
  {
   "property": "C16",
   "status": "proved",
   "theorems": [
    "C16_step",
    "C16_normal_equations",
    "C16_monotone",
    "C16_damping",
    "C16_affine",
    "C16_mismatch"
   ],
   "note": ""
  },
  {
   "property": "C17",
   "status": "partial",
   "theorems": [
    "C17_refuted",
    "C17_nearby_partial",
    "C17_consistent_partial"
   ],
   "note": "False of the code with the default settings (refuted theorem): the convergence exit returns the point before and the chi-squared after the last step. Proved: the values belong to a point within the stopping tolerance, and to the returned one when that tolerance is zero, if no gain ratio equals epsilon."
  },
  {
   "property": "C18",
   "status": "proved",
   "theorems": [
    "C18_positive",
    "C18_sum_one",
    "C18_symmetric",
    "C18_blocks"
   ],
   "note": ""
  },
  {
   "property": "C19",
   "status": "proved",
   "theorems": [
    "C19_contains",
    "C19_degenerate"
   ],
   "note": ""
  },
  {
   "property": "C20",
   "status": "proved",
   "theorems": [
    "C20_union",
    "C20_area"
   ],
   "note": ""
  },
  {
   "property": "C21",
   "status": "proved",
   "theorems": [
    "C21_ring",
    "C21_area"
   ],
   "note": ""
  },
  {
   "property": "C22",
   "status": "proved",
   "theorems": [
    "C22_points",
    "C22_triangles"
   ],
   "note": ""
  },
  {
   "property": "C23",
   "status": "proved",
   "theorems": [
    "C23_images"
   ],
   "note": "For every ray-tracing function and every root finder. The tolerance is the one the code uses: epsilon + 1e-5 |s| per component (allclose) on the converged exit, epsilon on the other."
  },
  {
   "property": "C24",
   "status": "proved",
   "theorems": [
    "C24_cover",
    "C24_invariant",
    "C24_returns",
    "C24_exact"
   ],
   "note": ""
  },
  {
   "property": "C25",
   "status": "partial",
   "theorems": [
    "C25_refuted",
    "C25_outside_crash",
    "C25_depth_refuted",
    "C25_inside_partial"
   ],
   "note": "Refuted: a source without an image in the field makes the search take the first element of an empty list (IndexError), and a depth limit reached before the triangles are smaller than epsilon^2 reads an unassigned variable (NameError). C25_inside_partial states when the call returns."
  },
  {
   "property": "C26",
   "status": "proved",
   "theorems": [
    "C26_reduced_undoes_physical",
    "C26_physical_undoes_reduced",
    "C26_ratio",
    "C26_linear"
   ],
   "note": ""
  },
  {
   "property": "C27",
   "status": "proved",
   "theorems": [
    "C27_jacobian_shear_magnification",
    "C27_shear",
    "C27_default_methods_consistent"
   ],
   "note": ""
  },
  {
   "property": "C28",
   "status": "proved",
   "theorems": [
    "C28_finitediff_exact_on_affine",
    "C28_methods"
   ],
   "note": ""
  },
  {
   "property": "C29",
   "status": "proved",
   "theorems": [
    "C29_sums",
    "C29_any_order",
    "C29_concatenation",
    "C29_consistent"
   ],
   "note": ""
  },
  {
   "property": "C30",
   "status": "proved",
   "theorems": [
    "C30_multiplane_equation",
    "C30_one_plane"
   ],
   "note": "For lenses listed by increasing redshift; what happens for other listings is C31."
  },
  {
   "property": "C31",
   "status": "partial",
   "theorems": [
    "C31_order_refuted",
    "C31_order_silent_refuted",
    "C31_sorted_listings_partial"
   ],
   "note": "False of the code: listing planes out of redshift order raises IndexError or silently returns a wrong position (refuted theorems). Proved for any two listings both sorted by redshift."
  },
  {
   "property": "C32",
   "status": "partial",
   "theorems": [
    "C32_massless_plane",
    "C32_unsorted_refuted"
   ],
   "note": "Proved for lists sorted by redshift; false when the insertion makes the listing unsorted (refuted theorem, same cause as C31)."
  },
  {
   "property": "C33",
   "status": "partial",
   "theorems": [
    "C33_actual_ratio",
    "C33_one_plane_delay_refuted"
   ],
   "note": "False of the code (refuted theorem). C33_actual_ratio gives the exact factor between the two delays."
  },
  {
   "property": "C34",
   "status": "proved",
   "theorems": [
    "C34_stationary_at_images",
    "C34_delay_between_images",
    "C34_flags"
   ],
   "note": ""
  },
  {
   "property": "C35",
   "status": "proved",
   "theorems": [
    "C35_comoving_chain",
    "C35_comoving_self",
    "C35_angular_is_comoving_over_1pz",
    "C35_angular_compose",
    "C35_critical_surface_density",
    "C35_time_delay_distance",
    "C35_positive"
   ],
   "note": ""
  },
  {
   "property": "C36",
   "status": "proved",
   "theorems": [
    "C36_zero_redshift",
    "C36_hubble_scaling",
    "C36_exact_at_knots",
    "C36_transverse",
    "C36_density_today",
    "C36_density_increasing"
   ],
   "note": ""
  },
  {
   "property": "C37",
   "status": "proved",
   "theorems": [
    "C37_e_roundtrip",
    "C37_q_roundtrip",
    "C37_q_range"
   ],
   "note": ""
  },
  {
   "property": "C38",
   "status": "proved",
   "theorems": [
    "C38_c_roundtrip",
    "C38_q_roundtrip",
    "C38_q_range"
   ],
   "note": ""
  },
  {
   "property": "C39",
   "status": "proved",
   "theorems": [
    "C39_any_history",
    "C39_switch"
   ],
   "note": ""
  },
  {
   "property": "C40",
   "status": "partial",
   "theorems": [
    "C40_shear_any_history",
    "C40_shear_switch",
    "C40_point_any_history_partial",
    "C40_point_switch_partial",
    "C40_sie_any_history_partial",
    "C40_sie_switch_partial",
    "C40_point_stale_link_refuted",
    "C40_point_second_switch_refuted"
   ],
   "note": "ExternalShear: proved for every history and every caskade policy. Point and SIE never unlink by themselves: proved when caskade drops the links of a parameter that gets a plain value, false otherwise (refuted theorems)."
  },
  {
   "property": "C41",
   "status": "proved",
   "theorems": [
    "C41_mass_to_rein_to_mass",
    "C41_rein_to_mass_to_rein",
    "C41_einstein_mass"
   ],
   "note": ""
  },
  {
   "property": "C42",
   "status": "proved",
   "theorems": [
    "C42_mass_sheet",
    "C42_mass_sheet_raytrace",
    "C42_external_shear",
    "C42_external_shear_angular"
   ],
   "note": ""
  },
  {
   "property": "C43",
   "status": "proved",
   "theorems": [
    "C43_sis",
    "C43_sis_deflection_length"
   ],
   "note": ""
  },
  {
   "property": "C44",
   "status": "proved",
   "theorems": [
    "C44_point",
    "C44_point_infinite_only_at_centre",
    "C44_point_ring"
   ],
   "note": ""
  },
  {
   "property": "C45",
   "status": "partial",
   "theorems": [
    "C45_softened_sis_gradient_refuted",
    "C45_softened_sis_convergence_refuted",
    "C45_softened_point_gradient_refuted",
    "C45_softened_point_convergence_refuted",
    "C45_refuted"
   ],
   "note": "False of the code: with softening s>0 the SIS and Point deflection is not the gradient of the potential and the convergence is not half its divergence, at any point off the centre (refuted theorems). The unsoftened case is C43/C44."
  },
  {
   "property": "C46",
   "status": "proved",
   "theorems": [
    "C46_sie"
   ],
   "note": ""
  },
  {
   "property": "C47",
   "status": "proved",
   "theorems": [
    "C47_isodensity_ellipses",
    "C47_half_contour",
    "C47_homogeneous",
    "C47_potential_euler",
    "C47_half_turn",
    "C47_velocity_dispersion"
   ],
   "note": ""
  },
  {
   "property": "C48",
   "status": "partial",
   "theorems": [
    "C48_chunk_refuted",
    "C48_whole_series_partial",
    "C48_oversized_chunk"
   ],
   "note": "Refuted: with n_iter=4 and chunk_size=2 the deflection differs from the unchunked one (max instead of min in the slice, last remainder dropped). Equality is proved for chunk_size 1 and for every chunk size above n_iter/2; larger than n_iter raises TypeError."
  },
  {
   "property": "C49",
   "status": "partial",
   "theorems": [
    "C49_remainder",
    "C49_divergence_partial",
    "C49_divergence_all_slopes_partial",
    "C49_constant_refuted",
    "C49_circular",
    "C49_scaling",
    "C49_isothermal",
    "C49_softened_refuted"
   ],
   "note": "The constant of the property is refuted for t=3/2 (it must grow with n_iter) and the softening breaks the consistency; the exact remainder of divergence, curl and potential gradient is proved for every n_iter, with the bound for t<=1 and a bound with factor n_iter for all t, exact consistency for q=1, scaling, potential formula and the SIS case."
  },
  {
   "property": "C50",
   "status": "proved",
   "theorems": [
    "C50_consistent",
    "C50_orders"
   ],
   "note": ""
  },
  {
   "property": "C51",
   "status": "proved",
   "theorems": [
    "C51_consistent",
    "C51_enclosed_mass",
    "C51_deflection_of_enclosed_mass"
   ],
   "note": ""
  },
  {
   "property": "C52",
   "status": "proved",
   "theorems": [
    "C52_consistent",
    "C52_softened_refuted"
   ],
   "note": "Proved for the unsoftened lens off the 1e-6 window; a separate theorem shows that with softening s>0 the deflection is not the gradient."
  },
  {
   "property": "C53",
   "status": "partial",
   "theorems": [
    "C53_scale_radius_refuted",
    "C53_unbounded_refuted",
    "C53_finite_partial",
    "C53_continuous_partial"
   ],
   "note": "Refuted: at the scale radius the code returns 0/0, and within 1e-6 of it the clamped numerator over r^2-1 is unbounded. Finiteness at every other radius and continuity off the 1e-6 window are proved."
  },
  {
   "property": "C54",
   "status": "proved",
   "theorems": [
    "C54_virial_mass",
    "C54_mean_density",
    "C54_class"
   ],
   "note": ""
  },
  {
   "property": "C55",
   "status": "proved",
   "theorems": [
    "C55_consistent",
    "C55_enclosed_mass",
    "C55_gradient_softened",
    "C55_softened_refuted"
   ],
   "note": "Proved for the unsoftened lens off the one percent window; the gradient also with softening; a separate theorem shows that with softening the convergence is not half the divergence."
  },
  {
   "property": "C56",
   "status": "proved",
   "theorems": [
    "C56_total_mass",
    "C56_normalisation"
   ],
   "note": ""
  },
  {
   "property": "C57",
   "status": "partial",
   "theorems": [
    "C57_divergence_refuted",
    "C57_fall_off_refuted",
    "C57_fall_off_partial",
    "C57_divergence_partial",
    "C57_convergence_mass_partial",
    "C57_potential_refused_partial"
   ],
   "note": "Refuted: the code deflects by 4GM/r^2, so for constant M it falls off as 1/R^2 and half its divergence is not the convergence. Proved: the exact divergence, the 1/R^2 law, and that the reported convergence integrates to the given enclosed mass."
  },
  {
   "property": "C58",
   "status": "proved",
   "theorems": [
    "C58_deflection_linear",
    "C58_potential_linear",
    "C58_deflection_scale",
    "C58_potential_scale",
    "C58_zero_map",
    "C58_defined"
   ],
   "note": ""
  },
  {
   "property": "C59",
   "status": "partial",
   "theorems": [
    "C59_refuted",
    "C59_conv2d_refuted",
    "C59_displaced_partial",
    "C59_shift_partial",
    "C59_antisymmetric_partial"
   ],
   "note": "False of the code: the fft deflection map is displaced by half a pixel (plus whole pixels when 2n is not a fast transform length), refuted for every map size and pixel in both convolution modes. Proved instead: exact value as a sum over displaced point masses, antisymmetry about the displaced position."
  },
  {
   "property": "C60",
   "status": "partial",
   "theorems": [
    "C60_refuted",
    "C60_same_numbers_partial",
    "C60_offset_partial"
   ],
   "note": "False of the code: conv2d returns the uncropped 2n x 2n array and interpolates it over the n-pixel field of view; refuted for every map size. Proved instead: the fft map is the crop of the conv2d map at a fixed offset."
  },
  {
   "property": "C61",
   "status": "proved",
   "theorems": [
    "C61_effective_radius",
    "C61_positive",
    "C61_decreasing",
    "C61_level_sets",
    "C61_k_positive"
   ],
   "note": ""
  },
  {
   "property": "C62",
   "status": "partial",
   "theorems": [
    "C62_refuted",
    "C62_ring_refuted",
    "C62_outside",
    "C62_centre",
    "C62_disc_partial"
   ],
   "note": "False of the code for theta_s > 1: mu = sqrt(1 - b^2) is not scaled by theta_s and is NaN for 1 < b <= theta_s. Zero outside and Ie at the centre hold for every theta_s; finiteness and bounds proved for theta_s <= 1."
  },
  {
   "property": "C63",
   "status": "proved",
   "theorems": [
    "C63_pixel_centres",
    "C63_outside",
    "C63_time_centres",
    "C63_time_outside"
   ],
   "note": ""
  },
  {
   "property": "C64",
   "status": "proved",
   "theorems": [
    "C64_sum",
    "C64_members",
    "C64_order",
    "C64_flatten",
    "C64_empty"
   ],
   "note": ""
  },
  {
   "property": "C65",
   "status": "partial",
   "theorems": [
    "C65_constant_partial",
    "C65_no_psf",
    "C65_refuted"
   ],
   "note": "False of the code in fft mode when the PSF has different half widths (e.g. 3 x 1): refuted for every square field of at least 2 x 2. Proved for conv2d mode on any field, for fft mode on square fields with equal half widths, for 1 x 1 PSFs and with the PSF off, for every upsample factor and quadrature level."
  },
  {
   "property": "C66",
   "status": "partial",
   "theorems": [
    "C66_conv2d",
    "C66_fft_partial",
    "C66_no_psf",
    "C66_refuted",
    "C66_field_refuted"
   ],
   "note": "False of the code in fft mode for PSFs of different half widths and for fields that are not square (axes exchanged): both refuted. Proved: conv2d mode is the plain centred convolution for every shape; fft mode is the same for square fields and equal half widths."
  },
  {
   "property": "C67",
   "status": "partial",
   "theorems": [
    "C67_shape_partial",
    "C67_fft_shape",
    "C67_refuted"
   ],
   "note": "False of the code in fft mode on fields that are not square (4 x 8 field with a 3 x 3 PSF gives 5 rows). Proved: exact condition for the shape to be right in fft mode; always right in conv2d mode or without PSF."
  },
  {
   "property": "C68",
   "status": "proved",
   "theorems": [
    "C68_additive",
    "C68_both_off",
    "C68_linear",
    "C68_no_deflection",
    "C68_psf_scale",
    "C68_chunk"
   ],
   "note": ""
  },
  {
   "property": "C69",
   "status": "proved",
   "theorems": [
    "C69_uniform",
    "C69_bounds",
    "C69_affine",
    "C69_unknown"
   ],
   "note": ""
  },
  {
   "property": "C70",
   "status": "partial",
   "theorems": [
    "C70_resolved_partial",
    "C70_refuted",
    "C70_list_refuted"
   ],
   "note": "False of the code when two objects are written the same way, and for references inside a list. Proved for every configuration whose objects can be told apart."
  },
  {
   "property": "C71",
   "status": "proved",
   "theorems": [
    "C71_effective_deflection",
    "C71_effective_convergence"
   ],
   "note": ""
  },
  {
   "property": "C72",
   "status": "proved",
   "theorems": [
    "C72_pixel_centres",
    "C72_outside",
    "C72_refused",
    "C72_shape"
   ],
   "note": ""
  },
  {
   "property": "C73",
   "status": "proved",
   "theorems": [
    "C73_safe_divide",
    "C73_safe_log"
   ],
   "note": ""
  },
  {
   "property": "C74",
   "status": "proved",
   "theorems": [
    "C74_isothermal_convergence"
   ],
   "note": ""
  },
  {
   "property": "C75",
   "status": "proved",
   "theorems": [
    "C75_increasing",
    "C75_close_to_exact",
    "C75_tight"
   ],
   "note": ""
  },
  {
   "property": "C76",
   "status": "partial",
   "theorems": [
    "C76_high_redshift_refuted",
    "C76_accurate_partial"
   ],
   "note": "False of the code: the table stops at 10 and the cubic extrapolation takes over (refuted at z=1100, Om0=0.3, for every h0). Inside the table the error is at most 1/16."
  },
  {
   "property": "C77",
   "status": "proved",
   "theorems": [
    "C77_pixelated_potential_consistent"
   ],
   "note": ""
  },
  {
   "property": "C78",
   "status": "proved",
   "theorems": [
    "C78_central_value",
    "C78_projected_density"
   ],
   "note": ""
  },
  {
   "property": "C79",
   "status": "partial",
   "theorems": [
    "C79_refuted",
    "C79_time_refuted",
    "C79_partial"
   ],
   "note": "False of the code: the constructors accept an extra channel axis which interp2d / interp3d refuse. Proved for plain images."
  },
  {
   "property": "C80",
   "status": "proved",
   "theorems": [
    "C80_setters",
    "C80_refused"
   ],
   "note": ""
  },
  {
   "property": "C81",
   "status": "proved",
   "theorems": [
    "C81_angles",
    "C81_critical_surface_density",
    "C81_hubble_distance",
    "C81_light_travel_time"
   ],
   "note": ""
  },
  {
   "property": "C82",
   "status": "proved",
   "theorems": [
    "C82_pseudo_jaffe",
    "C82_tnfw",
    "C82_nfw",
    "C82_unit_convergence"
   ],
   "note": ""
  },
  {
   "property": "C83",
   "status": "partial",
   "theorems": [
    "C83_group_raytrace",
    "C83_all_raytrace",
    "C83_delay_nan",
    "C83_delay_refuted"
   ],
   "note": "Ray tracing proved for every listing by increasing redshift. False of the code for time delays: Multiplane.time_delay divides by the distance between consecutive planes, so two lenses at one redshift give NaN (proved for all lenses), while as a SinglePlane they have a delay."
  },
  {
   "property": "C84",
   "status": "proved",
   "theorems": [
    "C84_convergence",
    "C84_raytrace",
    "C84_same_images",
    "C84_magnification",
    "C84_time_delay"
   ],
   "note": ""
  },
  {
   "property": "C85",
   "status": "proved",
   "theorems": [
    "C85_sis_images",
    "C85_sis_magnifications",
    "C85_point_images",
    "C85_point_magnifications",
    "C85_einstein_ring"
   ],
   "note": ""
  },
  {
   "property": "C86",
   "status": "partial",
   "theorems": [
    "C86_pad",
    "C86_pad_image",
    "C86_pad_too_long",
    "C86_flatten",
    "C86_flatten_all",
    "C86_flatten_scalar_refuted",
    "C86_avg_pool2d",
    "C86_avg_pool2d_windows",
    "C86_avg_pool2d_refuted",
    "C86_upsample_total",
    "C86_upsample_refuted",
    "C86_add_at_indices",
    "C86_add_at_indices_refuted",
    "C86_in_place",
    "C86_in_place_refuted",
    "C86_chunk",
    "C86_chunk_refuted"
   ],
   "note": "Refuted by the faithful model in corner cases: jax flatten of a scalar raises ZeroDivisionError, jax pad ignores surplus pairs, jax avg_pool2d ignores padding, jax upsample2d does not divide by scale^2 (and interpolates), chunk splits differently when the count does not divide, add_at_indices differs for repeated positions, torch updates its argument in place. Proved to agree in every other case of the operations modelled."
  },
  {
   "property": "C87",
   "status": "proved",
   "theorems": [
    "C87_vmap_n",
    "C87_shallow",
    "C87_depth"
   ],
   "note": ""
  },
  {
   "property": "C88",
   "status": "proved",
   "theorems": [
    "C88_nfw",
    "C88_tnfw",
    "C88_tnfw_total",
    "C88_tnfw_window",
    "C88_tnfw_scales",
    "C88_tnfw_limit"
   ],
   "note": ""
  },
  {
   "property": "C89",
   "status": "partial",
   "theorems": [
    "C89_circular_refuted",
    "C89_tile_refuted",
    "C89_tile_partial",
    "C89_values_partial"
   ],
   "note": "False of the code for circular padding (only n-1 rows and columns are appended, so a gap of zeros remains) and for tile padding when 2n is not a fast transform length (the transform is longer than the tiled map). Proved for tile padding when 2n is a fast length; values at pixel centres proved for every padding."
  },
  {
   "property": "C90",
   "status": "partial",
   "theorems": [
    "C90_refuted",
    "C90_zero_partial",
    "C90_back_partial",
    "C90_modes_partial"
   ],
   "note": "False of the code when the padding is not zero: the kernels are windowed according to the mode given at construction only. Proved for zero padding; changing back restores the lens for every padding."
  },
  {
   "property": "C91",
   "status": "proved",
   "theorems": [
    "C91_pixel_centres",
    "C91_outside",
    "C91_between",
    "C91_constructor"
   ],
   "note": ""
  },
  {
   "property": "C92",
   "status": "partial",
   "theorems": [
    "C92_refuted",
    "C92_half_light_partial",
    "C92_growth_partial"
   ],
   "note": "False exactly: at n = 1/2 more than half of the light is inside Re, since k is an approximation. Proved for integer and half-integer n in the valid range: the fraction is 1/2 up to 2e-4/(2n)^3 (default) and 0.011, or 6e-4 from n = 3/2 on (use_lenstronomy_k). Other n are missing."
  },
  {
   "property": "C93",
   "status": "proved",
   "theorems": [
    "C93_second_order"
   ],
   "note": ""
  },
  {
   "property": "C94",
   "status": "proved",
   "theorems": [
    "C94_mass_sheet",
    "C94_shear",
    "C94_sis",
    "C94_point",
    "C94_sie",
    "C94_epl",
    "C94_multipole",
    "C94_jaffe",
    "C94_nfw",
    "C94_tnfw",
    "C94_enclosed",
    "C94_sersic",
    "C94_star"
   ],
   "note": ""
  },
  {
   "property": "C95",
   "status": "proved",
   "theorems": [
    "C95_finite_is_exact",
    "C95_jacobian",
    "C95_mass_sheet",
    "C95_external_shear",
    "C95_sis",
    "C95_point",
    "C95_sie",
    "C95_pseudo_jaffe",
    "C95_nfw",
    "C95_tnfw",
    "C95_multipole",
    "C95_epl_convergence",
    "C95_epl",
    "C95_sersic"
   ],
   "note": ""
  },
  {
   "property": "C96",
   "status": "partial",
   "theorems": [
    "C96_sie_partial",
    "C96_epl_convergence_partial",
    "C96_sis_centre",
    "C96_point_centre",
    "C96_nfw_centre",
    "C96_tnfw_deflects_at_centre",
    "C96_tnfw_centre",
    "C96_pseudo_jaffe_centre",
    "C96_epl_centre",
    "C96_refuted",
    "C96_backpropagation_centre"
   ],
   "note": "False of the code: C96_refuted. For SIS, Point, NFW, TNFW and PseudoJaffe the automatic Jacobian at the centre is NaN for every softening although the deflection is differentiable there (C96_*_centre); TNFW deflects the ray through its own centre (C96_tnfw_deflects_at_centre); the PseudoJaffe class does not pass its softening on. What holds: SIE deflection and EPL convergence with s > 0 are differentiated exactly at every point."
  },
  {
   "property": "C97",
   "status": "proved",
   "theorems": [
    "C97_reverse_is_forward",
    "C97_deflection_of_potential",
    "C97_mass_sheet",
    "C97_external_shear",
    "C97_sis",
    "C97_point",
    "C97_sie",
    "C97_pseudo_jaffe",
    "C97_nfw",
    "C97_tnfw",
    "C97_multipole",
    "C97_epl_convergence",
    "C97_epl",
    "C97_sersic"
   ],
   "note": ""
  },
  {
   "property": "C98",
   "status": "proved",
   "theorems": [
    "C98_epl",
    "C98_sie",
    "C98_sis"
   ],
   "note": ""
  },
  {
   "property": "C99",
   "status": "proved",
   "theorems": [
    "C99_tangential",
    "C99_sis",
    "C99_point",
    "C99_pseudo_jaffe",
    "C99_nfw",
    "C99_tnfw",
    "C99_sis_isothermal",
    "C99_sie_isothermal",
    "C99_minimum"
   ],
   "note": ""
  },
  {
   "property": "C100",
   "status": "proved",
   "theorems": [
    "C100_deflection",
    "C100_potential",
    "C100_round",
    "C100_not_exact"
   ],
   "note": ""
  },
  {
   "property": "C101",
   "status": "proved",
   "theorems": [
    "C101_limit",
    "C101_isothermal"
   ],
   "note": ""
  },
  {
   "property": "C102",
   "status": "proved",
   "theorems": [
    "C102_pseudo_jaffe_enclosed",
    "C102_tnfw_enclosed",
    "C102_pseudo_jaffe_far",
    "C102_pseudo_jaffe_potential",
    "C102_tnfw_far",
    "C102_tnfw_potential"
   ],
   "note": ""
  },
  {
   "property": "C103",
   "status": "proved",
   "theorems": [
    "C103_sis_pair",
    "C103_point_pair",
    "C103_unit",
    "C103_sie_two_images",
    "C103_sis",
    "C103_epl"
   ],
   "note": ""
  },
  {
   "property": "C104",
   "status": "partial",
   "theorems": [
    "C104_mass_sheet",
    "C104_external_shear",
    "C104_sis",
    "C104_point",
    "C104_sie_partial",
    "C104_sie_tiny_core_refuted",
    "C104_epl",
    "C104_multipole",
    "C104_pseudo_jaffe_partial",
    "C104_pseudo_jaffe_softened_refuted",
    "C104_tnfw",
    "C104_pixelated_deflection",
    "C104_pixelated_convergence",
    "C104_sersic",
    "C104_raytrace",
    "C104_magnification"
   ],
   "note": "False of the code in two places. potential_sie replaces a core radius below 1e-6 by 1e-6 (C104_sie_tiny_core_refuted: for every such core and every l > 1 the potential does depend on the unit). The functional pseudo-Jaffe convergence and potential add the softening, an angle, to the square of a radius (C104_pseudo_jaffe_softened_refuted, for every softening and every l <> 1). Everything else is proved."
  },
  {
   "property": "C105",
   "status": "partial",
   "theorems": [
    "C105_sis",
    "C105_sie",
    "C105_epl",
    "C105_pseudo_jaffe",
    "C105_nfw_positive",
    "C105_nfw_partial",
    "C105_nfw_refuted",
    "C105_tnfw_positive",
    "C105_tnfw_partial",
    "C105_tnfw_refuted"
   ],
   "note": "False of the code for the two halos. Every NFW lens has a convergence that rises with the distance just inside the scale radius (C105_nfw_refuted; the numerator is frozen within one part in a million of it). Every TNFW lens jumps up where the series expansion of its profile ends, at 1.01 scale radii (C105_tnfw_refuted). Outside these windows both fall, and both are positive everywhere they are finite."
  },
  {
   "property": "C106",
   "status": "proved",
   "theorems": [
    "C106_mass_sheet",
    "C106_external_shear",
    "C106_sis",
    "C106_point",
    "C106_sie",
    "C106_epl",
    "C106_multipole",
    "C106_pseudo_jaffe",
    "C106_nfw",
    "C106_tnfw",
    "C106_enclosed_mass",
    "C106_sersic",
    "C106_star_source",
    "C106_sie_symmetric",
    "C106_epl_symmetric",
    "C106_sersic_symmetric",
    "C106_multipole_symmetric",
    "C106_multipole_fold"
   ],
   "note": ""
  },
  {
   "property": "C107",
   "status": "proved",
   "theorems": [
    "C107_exact",
    "C107_converges",
    "C107_slope"
   ],
   "note": ""
  },
  {
   "property": "C108",
   "status": "proved",
   "theorems": [
    "C108_flat_distance",
    "C108_flat_density",
    "C108_distances",
    "C108_one_plane",
    "C108_rays",
    "C108_delays",
    "C108_point",
    "C108_pseudo_jaffe",
    "C108_nfw",
    "C108_tnfw"
   ],
   "note": ""
  },
  {
   "property": "C109",
   "status": "proved",
   "theorems": [
    "C109_factor",
    "C109_single",
    "C109_bounds",
    "C109_sum",
    "C109_flux"
   ],
   "note": ""
  },
  {
   "property": "C110",
   "status": "proved",
   "theorems": [
    "C110_never_worse",
    "C110_image_kept",
    "C110_near",
    "C110_search"
   ],
   "note": ""
  },
  {
   "property": "C111",
   "status": "proved",
   "theorems": [
    "C111_deflection",
    "C111_deflection_grad",
    "C111_image",
    "C111_image_grad",
    "C111_cube",
    "C111_cube_grad",
    "C111_pixel_centre"
   ],
   "note": ""
  },
  {
   "property": "C112",
   "status": "partial",
   "theorems": [
    "C112_at_source_nfw",
    "C112_at_source_tnfw",
    "C112_behind_pseudo_jaffe",
    "C112_behind_tnfw",
    "C112_behind_nfw",
    "C112_negative_tnfw",
    "C112_behind_multiplane",
    "C112_refuted"
   ],
   "note": "False of the code: no code path compares z_l with z_s. A halo behind the source repels, with negative convergence; a multiplane lens adds such planes. At z_l = z_s the reduced deflections of NFW and TNFW vanish in the exact model because they are multiplied by D_ls = 0; PseudoJaffe divides by the critical density there, which is itself a division by zero, and nothing is claimed for it."
  },
  {
   "property": "C113",
   "status": "proved",
   "theorems": [
    "C113_tnfw_nfw_potential",
    "C113_tnfw_nfw_deflection",
    "C113_tnfw_nfw_convergence",
    "C113_tnfw_nfw_softened",
    "C113_pseudo_jaffe_sis"
   ],
   "note": "With a softening s the TNFW deflection tends to (r+s)/r times the NFW deflection: the two classes soften the direction differently (C113_tnfw_nfw_softened)."
  },
  {
   "property": "C114",
   "status": "proved",
   "theorems": [
    "C114_any_scene",
    "C114_any_scene_backward",
    "C114_sie_sersic",
    "C114_sample_at_centre_fft",
    "C114_sample_at_centre"
   ],
   "note": ""
  },
  {
   "property": "C115",
   "status": "proved",
   "theorems": [
    "C115_sis",
    "C115_point",
    "C115_sie",
    "C115_sie_round",
    "C115_sie_potential",
    "C115_epl",
    "C115_nfw",
    "C115_tnfw",
    "C115_nfw_fades",
    "C115_tnfw_fades"
   ],
   "note": ""
  },
  {
   "property": "C116",
   "status": "proved",
   "theorems": [
    "C116_deflection",
    "C116_deflection_grad",
    "C116_potential",
    "C116_potential_grad",
    "C116_convergence",
    "C116_convergence_grad",
    "C116_pixel_response",
    "C116_pixel_response_potential",
    "C116_scale_response"
   ],
   "note": ""
  },
  {
   "property": "C117",
   "status": "partial",
   "theorems": [
    "C117_missed",
    "C117_present",
    "C117_refuted",
    "C117_found",
    "C117_outside"
   ],
   "note": "False of the code. Only the images of the corners are looked at, so an image whose surroundings are smaller than the grid is missed: for a Point lens in the middle of the field with 2 Rein^2 <= b h (h the spacing, b the distance of the source) the search never reports anything within two Einstein radii of the lens, at any depth, while one of its two images is there (C117_missed, C117_present); the witness of C117_refuted has the default settings. What holds (C117_found): if over the field and a margin the map to the source plane is an invertible matrix times a map that differs from the identity by at most 1/30 of every separation, every image half a cell inside the field is found to 2 b/a epsilon and nothing else is reported, as long as the last triangles are not smaller than the tolerance 1e-6 with which duplicates are removed; C117_outside is this for a Point lens outside the field."
  },
  {
   "property": "C118",
   "status": "proved",
   "theorems": [
    "C118_any_curve",
    "C118_any_curve_backward",
    "C118_sie_sersic"
   ],
   "note": ""
  },
  {
   "property": "C119",
   "status": "proved",
   "theorems": [
    "C119_pairs",
    "C119_second_order",
    "C119_flat",
    "C119_sheets"
   ],
   "note": ""
  },
  {
   "property": "C120",
   "status": "proved",
   "theorems": [
    "C120_deflection",
    "C120_jacobian",
    "C120_converges",
    "C120_source",
    "C120_sharp",
    "C120_convergence",
    "C120_time"
   ],
   "note": ""
  },
  {
   "property": "C121",
   "status": "proved",
   "theorems": [
    "C121_reduced",
    "C121_critical_density",
    "C121_time_delay_distance",
    "C121_pseudo_jaffe",
    "C121_tnfw",
    "C121_nfw",
    "C121_einstein_radius",
    "C121_velocity_dispersion",
    "C121_flat"
   ],
   "note": ""
  },
  {
   "property": "C122",
   "status": "proved",
   "theorems": [
    "C122_meaning",
    "C122_kinds",
    "C122_one_plane",
    "C122_forward",
    "C122_backward",
    "C122_lens",
    "C122_lenses",
    "C122_jacobian"
   ],
   "note": ""
  },
  {
   "property": "C123",
   "status": "proved",
   "theorems": [
    "C123_meaning",
    "C123_interp1d",
    "C123_distance",
    "C123_derived",
    "C123_critical_density",
    "C123_gradient",
    "C123_lenses"
   ],
   "note": ""
  },
  {
   "property": "C124",
   "status": "proved",
   "theorems": [
    "C124_carried",
    "C124_mirrored",
    "C124_thin",
    "C124_single_plane",
    "C124_multiplane_turned",
    "C124_multiplane_moved",
    "C124_derivatives",
    "C124_magnification",
    "C124_image_shift",
    "C124_image_flip_y",
    "C124_image_flip_x",
    "C124_image_swap"
   ],
   "note": ""
  },
  {
   "property": "C125",
   "status": "proved",
   "theorems": [
    "C125_unbiased",
    "C125_variance",
    "C125_error_bar",
    "C125_grid_slope",
    "C125_grid_converges",
    "C125_continuous"
   ],
   "note": ""
  },
  {
   "property": "C126",
   "status": "partial",
   "theorems": [
    "C126_path",
    "C126_thin",
    "C126_single_plane",
    "C126_multiplane_refuted"
   ],
   "note": "C126_multiplane_refuted: a Multiplane holding one mass sheet of the critical density sends all rays to one point but reports different arrival times (multiplane.py:108-116 adds tau times half the squared physical deflection, not the squared difference of the angular positions on consecutive planes). Proved for thin lenses and SinglePlane: C126_path, C126_thin, C126_single_plane."
  },
  {
   "property": "C127",
   "status": "proved",
   "theorems": [
    "C127_halo",
    "C127_physical",
    "C127_same_angle",
    "C127_scene"
   ],
   "note": ""
  },
  {
   "property": "C128",
   "status": "proved",
   "theorems": [
    "C128_an_image",
    "C128_first_is_bright",
    "C128_critical_sheet"
   ],
   "note": ""
  },
  {
   "property": "C129",
   "status": "proved",
   "theorems": [
    "C129_one_image",
    "C129_brightness",
    "C129_several"
   ],
   "note": ""
  },
  {
   "property": "C130",
   "status": "proved",
   "theorems": [
    "C130_matrix",
    "C130_tide",
    "C130_two_planes",
    "C130_aligned",
    "C130_round"
   ],
   "note": ""
  },
  {
   "property": "C131",
   "status": "proved",
   "theorems": [
    "C131_where",
    "C131_far",
    "C131_far_one"
   ],
   "note": ""
  },
  {
   "property": "C132",
   "status": "proved",
   "theorems": [
    "C132_together",
    "C132_one_image",
    "C132_gentle",
    "C132_flat",
    "C132_brightness"
   ],
   "note": ""
  },
  {
   "property": "C133",
   "status": "proved",
   "theorems": [
    "C133_at_most_four",
    "C133_centre",
    "C133_round"
   ],
   "note": ""
  },
  {
   "property": "C134",
   "status": "proved",
   "theorems": [
    "C134_sis",
    "C134_sis_ring",
    "C134_point",
    "C134_point_ring",
    "C134_epl",
    "C134_pseudo_jaffe_weak",
    "C134_pseudo_jaffe_strong",
    "C134_nfw_ring"
   ],
   "note": ""
  },
  {
   "property": "C135",
   "status": "proved",
   "theorems": [
    "C135_sis",
    "C135_sis_wide",
    "C135_sis_sharp",
    "C135_point",
    "C135_point_wide",
    "C135_point_sharp",
    "C135_epl",
    "C135_pseudo_jaffe_weak",
    "C135_pseudo_jaffe_strong"
   ],
   "note": ""
  },
  {
   "property": "C136",
   "status": "proved",
   "theorems": [
    "C136_sheared",
    "C136_unsheared",
    "C136_one_star",
    "C136_two_stars"
   ],
   "note": ""
  },
  {
   "property": "C137",
   "status": "partial",
   "theorems": [
    "C137_negative_refuted",
    "C137_negative_mass_refuted",
    "C137_total_refuted",
    "C137_total_partial",
    "C137_total_mass_partial",
    "C137_weights",
    "C137_dark_rim_partial",
    "C137_dark_rim_mass_partial",
    "C137_inside_partial",
    "C137_inside_mass_partial"
   ],
   "note": "refuted: in the outer half pixel of the field the linear interpolation extrapolates, so a map without negative pixels goes negative there (C137_negative_refuted, also for the convergence), and the total counts the outermost pixels 9/8 and their neighbours 7/8 times on each axis (C137_total_refuted; C137_total_partial and C137_weights give the exact total of every map). The statement is proved for maps whose two outermost rows and columns are empty (C137_dark_rim_partial) and, for the sign, between the outermost pixel centres (C137_inside_partial)."
  },
  {
   "property": "C138",
   "status": "partial",
   "theorems": [
    "C138_no_gradient",
    "C138_values",
    "C138_refuted",
    "C138_deflection_jacobian_partial",
    "C138_effective_convergence_partial",
    "C138_magnification_partial",
    "C138_finitediff_partial",
    "C138_reverse_partial",
    "C138_lenses_reverse",
    "C138_lenses"
   ],
   "note": "refuted: jacobian_lens_equation with its default method \"autograd\" subtracts backend.detach(J), so neither it nor shear (which calls it) carries a gradient, for any lens and any parameter (C138_no_gradient); for ExternalShear the shear is gamma_1, whose derivative is 1, and the reported one is 0 (C138_refuted). The values are right (C138_values). The statement is proved for jacobian_deflection_angle, effective_convergence_div and _curl, magnification off the critical curve, and for jacobian_lens_equation and shear with method \"finitediff\", for every smooth deflection formula, and in reverse mode for the Jacobian of the deflection and the magnification (C138_reverse_partial); C138_lenses shows the hypotheses for MassSheet, ExternalShear, SIS, Point and SIE."
  },
  {
   "property": "C139",
   "status": "proved",
   "theorems": [
    "C139_area",
    "C139_parity",
    "C139_affine",
    "C139_lenses"
   ],
   "note": ""
  },
  {
   "property": "C140",
   "status": "partial",
   "theorems": [
    "C140_limb_refuted",
    "C140_limb_partial",
    "C140_uniform_partial",
    "C140_shown_partial",
    "C140_microlens_partial",
    "C140_sheet_partial",
    "C140_sis_partial",
    "C140_point_partial"
   ],
   "note": "refuted: the limb darkening uses sqrt(1 - b^2) with the distance b in units of angle, not b/theta_s, so every limb-darkened star of radius below one is too bright (C140_limb_refuted; above one it is NaN, C62). The total is proved for theta_s = 1 (C140_limb_partial) and, for theta_s <= 1, without limb darkening (C140_uniform_partial), together with the amplification by mass sheet, SIS and Point in Microlens (C140_microlens_partial, C140_sheet_partial, C140_sis_partial, C140_point_partial). Missing: theta_s > 1, where the code returns NaN, and amplification of limb-darkened stars."
  },
  {
   "property": "C141",
   "status": "proved",
   "theorems": [
    "C141_stretch",
    "C141_sense",
    "C141_cross",
    "C141_delays",
    "C141_first"
   ],
   "note": ""
  },
  {
   "property": "C142",
   "status": "proved",
   "theorems": [
    "C142_point",
    "C142_sis",
    "C142_point_delays",
    "C142_sis_delays"
   ],
   "note": ""
  },
  {
   "property": "C143",
   "status": "proved",
   "theorems": [
    "C143_major",
    "C143_minor",
    "C143_three",
    "C143_not_three"
   ],
   "note": ""
  },
  {
   "property": "C144",
   "status": "partial",
   "theorems": [
    "C144_value_partial",
    "C144_raises_partial",
    "C144_names_partial",
    "C144_data_partial",
    "C144_refuted",
    "C144_pi_refuted"
   ],
   "note": "refuted: code.co_names lists the names of the outermost code object only (utils.py:57), so an attribute inside a lambda is evaluated and hands out a class object (C144_refuted, '(lambda: (1).__class__)()'), and pi, given as a local, is not found there (C144_pi_refuted, '(lambda: pi)()'). Proved: arithmetic evaluates to its value and raises only ZeroDivisionError (C144_value_partial, C144_raises_partial), forbidden names outside lambdas are refused (C144_names_partial), without lambdas only numbers and tuples of them come out (C144_data_partial). The function is private and not called by the library."
  },
  {
   "property": "C145",
   "status": "proved",
   "theorems": [
    "C145_delays",
    "C145_same",
    "C145_farther_first"
   ],
   "note": ""
  },
  {
   "property": "C146",
   "status": "proved",
   "theorems": [
    "C146_image",
    "C146_flux",
    "C146_sersic",
    "C146_pixelated",
    "C146_pixelated_time",
    "C146_star",
    "C146_stack"
   ],
   "note": ""
  },
  {
   "property": "C147",
   "status": "proved",
   "theorems": [
    "C147_brightness",
    "C147_round",
    "C147_reduced_shear",
    "C147_axis_ratio",
    "C147_image"
   ],
   "note": ""
  },
  {
   "property": "C148",
   "status": "proved",
   "theorems": [
    "C148_brightness",
    "C148_image",
    "C148_ellipse",
    "C148_area",
    "C148_one_image"
   ],
   "note": ""
  },
  {
   "property": "C149",
   "status": "partial",
   "theorems": [
    "C149_consistent",
    "C149_succeeds",
    "C149_success",
    "C149_failure",
    "C149_agree_partial",
    "C149_refuted"
   ],
   "note": "refuted: the setter assigns caskade's backend before it checks the name (backend_obj.py:27-28), so a name that caskade takes and caustics does not (such as numpy) raises ValueError and leaves caskade with that name and caustics with the old one (C149_refuted). Proved: the object of caustics is consistent after every history (C149_consistent), which assignments succeed (C149_succeeds), what they do (C149_success), that failing ones leave it as it was (C149_failure), and that both agree when caskade takes only torch and jax (C149_agree_partial)."
  },
  {
   "property": "C150",
   "status": "proved",
   "theorems": [
    "C150_fresh",
    "C150_axes",
    "C150_key",
    "C150_grid",
    "C150_reproducible",
    "C150_torch"
   ],
   "note": ""
  },
  {
   "property": "C151",
   "status": "proved",
   "theorems": [
    "C151_overlap",
    "C151_binned"
   ],
   "note": ""
  },
  {
   "property": "C152",
   "status": "proved",
   "theorems": [
    "C152_images",
    "C152_centroid",
    "C152_largest",
    "C152_ellipse",
    "C152_closer",
    "C152_distance"
   ],
   "note": ""
  },
  {
   "property": "C153",
   "status": "proved",
   "theorems": [
    "C153_sis",
    "C153_point",
    "C153_sis_unique",
    "C153_point_unique",
    "C153_unequal",
    "C153_both_fit",
    "C153_apart"
   ],
   "note": ""
  },
  {
   "property": "C154",
   "status": "proved",
   "theorems": [
    "C154_unique",
    "C154_sheet",
    "C154_sis",
    "C154_point",
    "C154_seen"
   ],
   "note": ""
  },
  {
   "property": "C155",
   "status": "proved",
   "theorems": [
    "C155_images",
    "C155_light",
    "C155_closer",
    "C155_distance"
   ],
   "note": ""
  },
  {
   "property": "C156",
   "status": "proved",
   "theorems": [
    "C156_ring",
    "C156_shape",
    "C156_limit"
   ],
   "note": ""
  },
  {
   "property": "C157",
   "status": "proved",
   "theorems": [
    "C157_weighs",
    "C157_sis",
    "C157_point",
    "C157_pseudo_jaffe"
   ],
   "note": ""
  },
  {
   "property": "C158",
   "status": "proved",
   "theorems": [
    "C158_anywhere",
    "C158_centre",
    "C158_unique"
   ],
   "note": ""
  }
 ]
}