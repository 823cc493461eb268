{
 "claims": [
  {
   "property": "C01",
   "status": "proved",
   "theorems": [
    "C01_inv_mod_p_inverse"
   ],
   "note": "all primes p, all positive a not divisible by p"
  },
  {
   "property": "C02",
   "status": "proved",
   "theorems": [
    "C02_inv_mod_p_errors",
    "C02_inv_mod_p_negative",
    "C02_all_integers_refuted"
   ],
   "note": "negative arguments always rejected, also invertible ones (refuted variant)"
  },
  {
   "property": "C03",
   "status": "proved",
   "theorems": [
    "C03_gauss_col_factorisation"
   ],
   "note": ""
  },
  {
   "property": "C04",
   "status": "proved",
   "theorems": [
    "C04_gauss_col_unitriangular"
   ],
   "note": ""
  },
  {
   "property": "C05",
   "status": "proved",
   "theorems": [
    "C05_gauss_col_reduced",
    "C05_index_pivot",
    "C05_index_pivot_zero"
   ],
   "note": ""
  },
  {
   "property": "C06",
   "status": "proved",
   "theorems": [
    "C06_gauss_col_total"
   ],
   "note": "OutOfFuel is unreachable for every well-formed integer matrix and every modulus"
  },
  {
   "property": "C07",
   "status": "proved",
   "theorems": [
    "C07_solve_mod_p_sound"
   ],
   "note": ""
  },
  {
   "property": "C08",
   "status": "proved",
   "theorems": [
    "C08_solve_mod_p_complete",
    "C08_no_equations_refuted"
   ],
   "note": "for at least one equation; zero equations raise IndexError (refuted variant)"
  },
  {
   "property": "C09",
   "status": "proved",
   "theorems": [
    "C09_solve_matrix",
    "C09_documented_contract_refuted"
   ],
   "note": "documented A X = B refuted; the code solves A X = B^T"
  },
  {
   "property": "C10",
   "status": "proved",
   "theorems": [
    "C10_gauss_col_rad_sound"
   ],
   "note": ""
  },
  {
   "property": "C11",
   "status": "proved",
   "theorems": [
    "C11_gauss_col_rad_complete"
   ],
   "note": ""
  },
  {
   "property": "C12",
   "status": "proved",
   "theorems": [
    "C12_gauss_barcodes"
   ],
   "note": "start_index > 0"
  },
  {
   "property": "C13",
   "status": "proved",
   "theorems": [
    "C13_rips_cliques"
   ],
   "note": "For every argsort returning a sorting permutation."
  },
  {
   "property": "C14",
   "status": "proved",
   "theorems": [
    "C14_rips_radii"
   ],
   "note": ""
  },
  {
   "property": "C15",
   "status": "proved",
   "theorems": [
    "C15_rips_filtered"
   ],
   "note": ""
  },
  {
   "property": "C16",
   "status": "proved",
   "theorems": [
    "C16_flag_cliques",
    "C16_negative_dimension",
    "C16_unordered_edges_refuted"
   ],
   "note": "The low-high edge hypothesis is needed: the refuted theorem gives a witness."
  },
  {
   "property": "C17",
   "status": "proved",
   "theorems": [
    "C17_signed_facets"
   ],
   "note": ""
  },
  {
   "property": "C18",
   "status": "proved",
   "theorems": [
    "C18_boundary_squared"
   ],
   "note": ""
  },
  {
   "property": "C19",
   "status": "proved",
   "theorems": [
    "C19_cycles"
   ],
   "note": ""
  },
  {
   "property": "C20",
   "status": "proved",
   "theorems": [
    "C20_homology_basis"
   ],
   "note": ""
  },
  {
   "property": "C21",
   "status": "proved",
   "theorems": [
    "C21_deaths"
   ],
   "note": ""
  },
  {
   "property": "C22",
   "status": "proved",
   "theorems": [
    "C22_images"
   ],
   "note": ""
  },
  {
   "property": "C23",
   "status": "proved",
   "theorems": [
    "C23_total",
    "C23_shape",
    "C23_max_rad_refuted"
   ],
   "note": ""
  },
  {
   "property": "C24",
   "status": "proved",
   "theorems": [
    "C24_clearing_transparent",
    "C24_cleared_columns_reduce_to_zero"
   ],
   "note": ""
  },
  {
   "property": "C25",
   "status": "proved",
   "theorems": [
    "C25_betti_numbers"
   ],
   "note": ""
  },
  {
   "property": "C26",
   "status": "proved",
   "theorems": [
    "C26_total",
    "C26_rips_homology",
    "C26_top_degree",
    "C26_rips_persistent_betti",
    "C26_rips_barcode",
    "C26_rips_barcode_unique",
    "C26_barcode_unique"
   ],
   "note": "Independent simplicial specification of chains, cycles and boundaries; distances nonnegative. The bars are the barcode of the filtration, and the only one up to order."
  },
  {
   "property": "C27",
   "status": "proved",
   "theorems": [
    "C27_tie_breaking"
   ],
   "note": "Any two sorting permutations and any two roundings."
  },
  {
   "property": "C28",
   "status": "proved",
   "theorems": [
    "C28_constructor_bars",
    "C28_constructor_coordinates",
    "C28_constructor_errors",
    "C28_store_empty_refuted"
   ],
   "note": ""
  },
  {
   "property": "C29",
   "status": "proved",
   "theorems": [
    "C29_sort",
    "C29_sort_unique",
    "C29_sort_idempotent",
    "C29_exact_order_refuted"
   ],
   "note": "rounding is an arbitrary function; exact (unrounded) order refuted"
  },
  {
   "property": "C30",
   "status": "proved",
   "theorems": [
    "C30_active_birth_death_changes"
   ],
   "note": "for two-dimensional barcodes whose dim attribute matches"
  },
  {
   "property": "C31",
   "status": "proved",
   "theorems": [
    "C31_update_broken"
   ],
   "note": ""
  },
  {
   "property": "C32",
   "status": "proved",
   "theorems": [
    "C32_next_hypercube",
    "C32_every_hypercube_once"
   ],
   "note": "For divisions all >= 1."
  },
  {
   "property": "C33",
   "status": "proved",
   "theorems": [
    "C33_nerve_edges"
   ],
   "note": "Holds also when some division is 0 (empty grid)."
  },
  {
   "property": "C34",
   "status": "proved",
   "theorems": [
    "C34_nerve_simplices"
   ],
   "note": "Levels are exactly the cliques of adjacent hypercubes; the last level 2^dim is empty."
  },
  {
   "property": "C35",
   "status": "proved",
   "theorems": [
    "C35_total",
    "C35_membership",
    "C35_coverage",
    "C35_flat_cloud",
    "C35_point_error",
    "C35_integer_cloud_refuted"
   ],
   "note": "Exact rational arithmetic. Float clouds: cast is the identity. For integer-typed clouds numpy truncates the corners and coverage fails (C35_integer_cloud_refuted). One point, equal points or no points raise ValueError."
  },
  {
   "property": "C36",
   "status": "proved",
   "theorems": [
    "C36_close_points",
    "C36_rips_simplices"
   ],
   "note": "Coordinate version and Euclidean version (squared distances)."
  },
  {
   "property": "C37",
   "status": "proved",
   "theorems": [
    "C37_intersections"
   ],
   "note": ""
  },
  {
   "property": "C38",
   "status": "proved",
   "theorems": [
    "C38_pivot_check_reduce"
   ],
   "note": "for columns without negative entries, as everywhere in the code; Python's recursion limit is not modelled"
  },
  {
   "property": "C39",
   "status": "partial",
   "theorems": [
    "C39_no_failure",
    "C39_kernel",
    "C39_kernel_barcode",
    "C39_image_partial",
    "C39_image_born",
    "C39_calm_partial",
    "C39_image_refuted",
    "C39_preimage_refuted",
    "C39_negative_refuted",
    "C39_empty_refuted",
    "C39_sizes"
   ],
   "note": "The statement is false of the code: kernel part proved in full, including that its bars are the barcode (C39_kernel_barcode); image bars can outlive the image and preimages need not map to the image (witnesses). Proved: the living bars with nonzero coordinates are a basis of the image; the whole statement when no domain generator dies while another lives on."
  },
  {
   "property": "C40",
   "status": "partial",
   "theorems": [
    "C40_quotient_partial",
    "C40_born_span",
    "C40_quotient_trivial",
    "C40_quotient_of_zero",
    "C40_quotient_refuted",
    "C40_no_failure",
    "C40_failure",
    "C40_complex",
    "C40_homology_partial",
    "C40_images",
    "C40_over_zero",
    "C40_over_zero_refuted",
    "C40_coordinates_refuted",
    "C40_quotient_barcode",
    "C40_homology_barcode"
   ],
   "note": "The bars returned by quotient and module_persistence_homology are proved right at every radius (some family with these bars is a basis of the quotient) and between radii (they are the barcode: C40_quotient_barcode, C40_homology_barcode), the images span the boundaries, and on every complex no exception is raised. The coordinates are proved right once all the generators of the next degree are born; before that they may not be cycles (C40_coordinates_refuted, C40_quotient_refuted: image_kernel keeps in the column the combination of N used for the last reduction). A degree whose codomain basis is empty is returned undivided (C40_over_zero, refuted by C40_over_zero_refuted)."
  },
  {
   "property": "C41",
   "status": "proved",
   "theorems": [
    "C41_addition",
    "C41_unsorted_refuted"
   ],
   "note": "Model is functional: operands are values, the code writes only into a fresh array. Broadcasting of width-1 arrays is not modelled."
  },
  {
   "property": "C42",
   "status": "proved",
   "theorems": [
    "C42_sums",
    "C42_sums_additive",
    "C42_sums_linear",
    "C42_minus",
    "C42_add_entry",
    "C42_copy_seq",
    "C42_add_entry_empty_refuted"
   ],
   "note": "The refutation: add_entry with empty coordinates does not clear an earlier entry."
  },
  {
   "property": "C43",
   "status": "proved",
   "theorems": [
    "C43_cech_square_zero",
    "cech_diff_formula",
    "cech_diff_no_coface"
   ],
   "note": "For every covered cloud whose nerve simplices (in the two dimensions involved) have cofaces; without a coface the code raises IndexError, proved as cech_diff_no_coface."
  },
  {
   "property": "C44",
   "status": "proved",
   "theorems": [
    "C44_cech_vertical_anticommute"
   ],
   "note": ""
  },
  {
   "property": "C45",
   "status": "proved",
   "theorems": [
    "C45_lift_total",
    "C45_lift_decomposition",
    "C45_im_is_boundaries"
   ],
   "note": ""
  },
  {
   "property": "C46",
   "status": "proved",
   "theorems": [
    "C46_zigzag",
    "C46_no_homology_refuted"
   ],
   "note": "Identity proved over nerve simplices with homology in the degree; for the others the missing lift is refuted by a witness, as the property says."
  },
  {
   "property": "C47",
   "status": "proved",
   "theorems": [
    "C47_bookkeeping",
    "C47_no_simplices"
   ],
   "note": "For an empty level of the nerve cycle_dimensions has no row at all (C47_no_simplices)."
  },
  {
   "property": "C48",
   "status": "proved",
   "theorems": [
    "C48_take_sample",
    "C48_no_points",
    "C48_empty"
   ],
   "note": "All distance matrices with zero diagonal and non-negative entries, all sample sizes and all random starts, including the wrap-around start -1. The matrix of distances is a parameter."
  },
  {
   "property": "C49",
   "status": "partial",
   "theorems": [
    "C49_circle",
    "C49_circle_distinct",
    "C49_circle_refuted",
    "C49_random_circle",
    "C49_ball_partial",
    "C49_ball_terminates",
    "C49_ball_small",
    "C49_ball_radius",
    "C49_ball_rejects",
    "C49_random_sphere",
    "C49_sphere_radius_refuted",
    "C49_random_cube",
    "C49_grid",
    "C49_grid_centred",
    "C49_grid_tridimensional",
    "C49_grid3_centred",
    "C49_torus",
    "C49_torus_error"
   ],
   "note": "Over the reals (stdlib Reals axioms), for all draws. False as stated in two places: circle(0, r) divides by zero, and ball never returns for a radius that is not positive; from dimension 4 on its termination depends on the draws. The other generators are covered completely."
  },
  {
   "property": "C50",
   "status": "proved",
   "theorems": [
    "C50_persistent_betti_numbers"
   ],
   "note": ""
  },
  {
   "property": "C51",
   "status": "proved",
   "theorems": [
    "C51_nerve_sees_all_intersections",
    "C51_large_overlap_refuted"
   ],
   "note": "Needs overlap < side; a witness shows the bound is needed."
  },
  {
   "property": "C52",
   "status": "proved",
   "theorems": [
    "C52_cover",
    "C52_fine"
   ],
   "note": "exact arithmetic; cast = identity (float clouds)"
  },
  {
   "property": "C53",
   "status": "proved",
   "theorems": [
    "C53_first_differential",
    "zero_page_no_failure",
    "zero_page_local_homology"
   ],
   "note": ""
  },
  {
   "property": "C54",
   "status": "proved",
   "theorems": [
    "C54_first_page_lift"
   ],
   "note": "All chains which are local cycles below max_r, with references below the number of radii; spec in Spec_SS."
  },
  {
   "property": "C55",
   "status": "partial",
   "theorems": [
    "C55_silent_refuted",
    "C55_shifted_refuted",
    "C55_value_error_refuted",
    "C55_runtime_error_refuted"
   ],
   "note": "False of the code as stated: four witnesses. What holds instead: degree 0 (C57), every degree if no three cover elements meet (C59), and every degree if the intersections are acyclic, whenever the computation returns (C60, C61, C62)."
  },
  {
   "property": "C56",
   "status": "proved",
   "theorems": [
    "C56_second_page",
    "C56_create",
    "C56_no_result"
   ],
   "note": "rounding must keep the radii of the filtration apart; C56_ring is a case"
  },
  {
   "property": "C57",
   "status": "proved",
   "theorems": [
    "C57_degree_zero",
    "C57_create",
    "C57_integer",
    "C57_flat",
    "C57_flat_refuted"
   ],
   "note": "the flat case is a refutation of the unconditional statement; C57_ring is a case"
  },
  {
   "property": "C58",
   "status": "proved",
   "theorems": [
    "C58_assemble",
    "C58_unique",
    "C58_elder",
    "C58_chain_refuted",
    "C58_loop_refuted",
    "C58_forever_refuted"
   ],
   "note": "the refutations show that chains of extensions are not handled: wrong bars for simultaneous deaths, endless recursion otherwise; C58_elder: chains in which every generator goes on as generators not younger and dying later are handled, and change no bar; C58_bars and C58_elder_chain are cases"
  },
  {
   "property": "C59",
   "status": "proved",
   "theorems": [
    "C59_mv_ss",
    "C59_create",
    "C59_integer",
    "C59_returns_refuted"
   ],
   "note": "C59_returns_refuted refutes the stronger claim that a result is always returned; C59_hour (a non-trivial extension) and C59_lantern (degree 2) are cases"
  },
  {
   "property": "C60",
   "status": "proved",
   "theorems": [
    "C60_mv_ss",
    "C60_create",
    "C60_integer"
   ],
   "note": "C60_bridges (a non-trivial extension), C60_bridges_cover and C60_octahedra (degree 2) are cases; C59_returns_refuted shows that the condition on the intersections cannot be dropped"
  },
  {
   "property": "C61",
   "status": "proved",
   "theorems": [
    "C61_algebra",
    "C61_second_page",
    "C61_create_page"
   ],
   "note": "Covers of any shape. C61_second_page: if mv_ss returns, rows above 0 of the second page are empty and place (n,0) is the Rips barcode in degree n. C61_create_page: the same for create_MV_ss, with overlap below the side of the hypercubes. Example: the ring covered by four squares."
  },
  {
   "property": "C62",
   "status": "partial",
   "theorems": [
    "C62_result",
    "C62_create",
    "C62_short_bar",
    "C62_create_short_bar",
    "C62_long_bars",
    "C62_create_long_bars",
    "C62_total_refuted",
    "C62_degree_one_refuted"
   ],
   "note": "When mv_ss or create_MV_ss returns, its result is the Rips barcode in every degree below max_dim (C62_result, C62_create; an empty degree has no entry in the result, so positions shift). It does return when every bar of positive degree below max_dim reaches max_r (C62_long_bars, C62_create_long_bars). False as stated, since it need not return: C62_total_refuted gives a cover of seven points where it raises ValueError, C62_short_bar shows that it fails whenever a bar of degree 2 or more, below max_dim, ends before max_r, and C62_degree_one_refuted that it may raise RuntimeError with max_dim = 2, when points at distance 0 are in different elements. Missing: whether it returns when all distances are positive, bars of degree 1 end before max_r and those of degree 2 or more do not."
  },
  {
   "property": "C63",
   "status": "partial",
   "theorems": [
    "C63_staircase",
    "C63_create",
    "C63_everywhere_refuted",
    "C63_nonzero_refuted"
   ],
   "note": "False as stated, in two ways, with computed witnesses: over simplices of the nerve without classes in the degree the sum need not be zero (C63_everywhere_refuted), and the representatives of a class on the third page can all be zero (C63_nonzero_refuted). Proved for all covers and all clouds: number of families, shapes, local cycles, and the identity over the simplices of the nerve with classes in the degree."
  },
  {
   "property": "C64",
   "status": "proved",
   "theorems": [
    "C64_scale",
    "C64_barcode"
   ],
   "note": "For every increasing change of scale with f(0) = 0."
  },
  {
   "property": "C65",
   "status": "proved",
   "theorems": [
    "C65_cut",
    "C65_barcode"
   ],
   "note": ""
  },
  {
   "property": "C66",
   "status": "proved",
   "theorems": [
    "C66_order",
    "C66_barcode"
   ],
   "note": "For symmetric distance matrices."
  },
  {
   "property": "C67",
   "status": "proved",
   "theorems": [
    "C67_repeat",
    "C67_barcode"
   ],
   "note": "For symmetric distance matrices with zero diagonal."
  },
  {
   "property": "C68",
   "status": "proved",
   "theorems": [
    "C68_degree_zero",
    "C68_cover",
    "C68_whole_zero",
    "C68_whole"
   ],
   "note": "Degree 0 for every cover; all degrees below max_dim when the cloud is divided in one direction only or all intersections are acyclic, provided create_MV_ss returns. Cases C68_frame and frame_call."
  },
  {
   "property": "C69",
   "status": "proved",
   "theorems": [
    "C69_degree_zero",
    "C69_change"
   ],
   "note": "The same conditions as C68. Cases C69_frame and C69_frame_more."
  },
  {
   "property": "C70",
   "status": "proved",
   "theorems": [
    "C70_local",
    "C70_cover",
    "C70_exists"
   ],
   "note": "create_MV_ss under the conditions of C68. Case C70_case."
  },
  {
   "property": "C71",
   "status": "proved",
   "theorems": [
    "C71_local",
    "C71_cover",
    "C71_degree_one_refuted"
   ],
   "note": "Degree 0; in degree 1 the bars can differ (C71_degree_one_refuted). Case C71_case."
  },
  {
   "property": "C72",
   "status": "proved",
   "theorems": [
    "C72_local",
    "C72_degree_zero",
    "C72_cover"
   ],
   "note": "create_MV_ss under the conditions of C68. Cases C73_case and C72_ladder."
  },
  {
   "property": "C73",
   "status": "proved",
   "theorems": [
    "C73_local",
    "C73_degree_zero"
   ],
   "note": "create_MV_ss in degree 0. Cases C73_case and C73_ladder."
  },
  {
   "property": "C74",
   "status": "proved",
   "theorems": [
    "C74_cells",
    "C74_euler",
    "C74_local"
   ],
   "note": "Counts of cells, bars and images at every radius below max_rad; Euler characteristic of the Rips complex up to dimension max_dim."
  },
  {
   "property": "C75",
   "status": "proved",
   "theorems": [
    "C75_local",
    "C75_degree_zero",
    "C75_cover",
    "C75_barcode"
   ],
   "note": "Interleaving of rank functions (how many bars contain an interval), with the bar by bar consequence for long bars; in degree 0 the counts of all deaths. For covers in degree 0 always, in all degrees below max_dim for simple covers."
  },
  {
   "property": "C76",
   "status": "proved",
   "theorems": [
    "C76_sample",
    "C76_take_sample"
   ],
   "note": "For metric distances; take_sample as modelled in C48, for every draw."
  },
  {
   "property": "C77",
   "status": "proved",
   "theorems": [
    "C77_barcode",
    "C77_local",
    "C77_degree_zero",
    "C77_cover",
    "C77_sample",
    "C77_take_sample"
   ],
   "note": "Matching of whole barcodes, for local_homology, create_MV_ss (degree 0 always, all degrees under the conditions of C68) and samples; examples C77_box (sharp), C77_ring, C77_line."
  },
  {
   "property": "C78",
   "status": "proved",
   "theorems": [
    "C78_barcode",
    "C78_local",
    "C78_degree_zero",
    "C78_cover",
    "C78_parts",
    "C78_parts_local"
   ],
   "note": "For two or any number of parts, in any order of the points (create_MV_ss: two parts); examples C78_boxes (local), C78_three (three parts) and C78_squares with squares_call (create_MV_ss with three cover elements)."
  },
  {
   "property": "C79",
   "status": "proved",
   "theorems": [
    "C79_add",
    "C79_group",
    "C79_arrays"
   ],
   "note": "Stated for every non-zero modulus of either sign; arrays are one-dimensional and of equal length."
  }
 ]
}
