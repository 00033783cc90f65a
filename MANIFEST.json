{
 "claims": [
  {
   "property": "C01",
   "status": "proved",
   "theorems": [
    "C01_combinations_complete",
    "C01_combinations_too_many"
   ],
   "note": "All lists and sizes."
  },
  {
   "property": "C02",
   "status": "partial",
   "theorems": [
    "C02_combinations_parity_partial",
    "C02_combinations_parity_refuted"
   ],
   "note": "Parity is right for n <= 1 and for n = len(seq); the general claim is refuted (a finding)."
  },
  {
   "property": "C03",
   "status": "proved",
   "theorems": [
    "C03_permutations_complete",
    "C03_permutations_distinct",
    "C03_permutations_empty"
   ],
   "note": "All lists."
  },
  {
   "property": "C04",
   "status": "proved",
   "theorems": [
    "C04_simplex_boundary_oriented",
    "C04_boundary_of_boundary",
    "C04_one_simplices_fail"
   ],
   "note": "Dimension >= 2; the 1-simplex case raises IndexError in the code and is proved to do so."
  },
  {
   "property": "C05",
   "status": "proved",
   "theorems": [
    "C05_chain_complex"
   ],
   "note": "All dimensions and meshes; any row order used by numpy_indexed."
  },
  {
   "property": "C06",
   "status": "proved",
   "theorems": [
    "C06_elements_are_faces",
    "C06_elements_unique",
    "C06_elements_representatives"
   ],
   "note": ""
  },
  {
   "property": "C07",
   "status": "proved",
   "theorems": [
    "C07_entries",
    "C07_entries_signed",
    "C07_shape_and_column_count"
   ],
   "note": ""
  },
  {
   "property": "C08",
   "status": "proved",
   "theorems": [
    "C08_cancel_iff_consistent"
   ],
   "note": ""
  },
  {
   "property": "C09",
   "status": "proved",
   "theorems": [
    "C09_accepts_iff_contiguous"
   ],
   "note": ""
  },
  {
   "property": "C10",
   "status": "partial",
   "theorems": [
    "C10_fix_orientation",
    "C10_isolated_last_simplex_fails"
   ],
   "note": "Under the contract of the SAT solver and at most two cofaces per facet. When the last simplex is isolated but others are adjacent the call always raises ValueError, also for orientable meshes (finding), so the claim holds only with the stated hypothesis."
  },
  {
   "property": "C11",
   "status": "proved",
   "theorems": [
    "C11_boundary_none_iff",
    "C11_boundary_closed",
    "C11_inconsistent_raises",
    "C11_open_curve_raises"
   ],
   "note": "Dimension >= 2; in dimension 1 the call raises AssertionError (finding)."
  },
  {
   "property": "C12",
   "status": "proved",
   "theorems": [
    "C12_parent_idx",
    "C12_boundary_elements"
   ],
   "note": ""
  },
  {
   "property": "C13",
   "status": "proved",
   "theorems": [
    "C13_select_subset",
    "C13_wrong_length",
    "C13_subset_faces"
   ],
   "note": "Non-empty selections."
  },
  {
   "property": "C14",
   "status": "proved",
   "theorems": [
    "C14_selector_algebra",
    "C14_selector_rows",
    "C14_selector_meaning",
    "C14_open_curve_refuted"
   ],
   "note": "The algebra holds for every topology. The meaning theorem needs dimension >= 2; for open curves it is refuted."
  },
  {
   "property": "C15",
   "status": "proved",
   "theorems": [
    "C15_closed_dual"
   ],
   "note": ""
  },
  {
   "property": "C16",
   "status": "partial",
   "theorems": [
    "C16_dual_chain_surface_partial",
    "C16_dual_chain_iff_coupling",
    "C16_dual_chain_3d_refuted"
   ],
   "note": "Proved for surfaces; in every dimension reduced to a coupling identity; refuted in dimension 3 for every solver (finding)."
  },
  {
   "property": "C17",
   "status": "partial",
   "theorems": [
    "C17_averaging_weights_partial",
    "C17_averaging_dim6_refuted"
   ],
   "note": "Weights 1/(k+1) proved for k <= 5 in every mesh of every dimension; at k = 6 the int8 path count wraps and every row sums to -1 (finding)."
  },
  {
   "property": "C18",
   "status": "partial",
   "theorems": [
    "C18_degree_partial",
    "C18_degree_128_refuted"
   ],
   "note": "Proved for fewer than 128 incident simplices and codimension at most 9; 128 incident simplices give -128 (finding)."
  },
  {
   "property": "C19",
   "status": "partial",
   "theorems": [
    "C19_check_chain_partial",
    "C19_check_chain_accepts",
    "C19_check_chain_refuted"
   ],
   "note": "Acceptance implies that all but the last product vanish modulo 256, and no constructed mesh is rejected; the last product is never checked (finding)."
  },
  {
   "property": "C20",
   "status": "proved",
   "theorems": [
    "C20_domains_are_flags"
   ],
   "note": "All dimensions n >= 1."
  },
  {
   "property": "C21",
   "status": "proved",
   "theorems": [
    "C21_barycentric_orientation",
    "C21_unoriented_opposing"
   ],
   "note": "Equivalence with consistency of the parent; without reorientation all neighbours are opposed."
  },
  {
   "property": "C22",
   "status": "proved",
   "theorems": [
    "C22_vertex_insertion",
    "C22_curves_fail"
   ],
   "note": "n >= 2 as stated; for curves the call is proved to raise IndexError (finding)."
  },
  {
   "property": "C23",
   "status": "proved",
   "theorems": [
    "C23_loop_subdivision"
   ],
   "note": "Consistency of the whole mesh additionally assumes no two triangles on the same three corners; C23_pillow shows this is needed."
  },
  {
   "property": "C24",
   "status": "partial",
   "theorems": [
    "C24_direct_chain_partial",
    "C24_direct_chain_negated_partial",
    "C24_direct_chain_refuted"
   ],
   "note": "Holds exactly for meshes with positive edge-sign convention; from_simplices stores the negative one, so it fails for every such mesh (finding)."
  },
  {
   "property": "C25",
   "status": "partial",
   "theorems": [
    "C25_direct_corners_partial",
    "C25_direct_corners_refuted"
   ],
   "note": "Right exactly for triangles with the edges of the first triangle; refuted for every mesh with two different triangles (finding)."
  },
  {
   "property": "C26",
   "status": "proved",
   "theorems": [
    "C26_faces",
    "C26_boundary_of_boundary",
    "C26_square_boundary"
   ],
   "note": ""
  },
  {
   "property": "C27",
   "status": "proved",
   "theorems": [
    "C27_chain",
    "C27_accepts_iff",
    "C27_elements",
    "C27_entries"
   ],
   "note": "mirror=True; dimensions above 7 are proved to raise AssertionError (finding)."
  },
  {
   "property": "C28",
   "status": "proved",
   "theorems": [
    "C28_product",
    "C28_positions",
    "C28_accepted"
   ],
   "note": ""
  },
  {
   "property": "C29",
   "status": "proved",
   "theorems": [
    "C29_grid",
    "C29_numbering",
    "C29_accepted"
   ],
   "note": ""
  },
  {
   "property": "C30",
   "status": "proved",
   "theorems": [
    "C30_symbols",
    "C30_terms"
   ],
   "note": "All dimensions; any row order used by numpy_indexed."
  },
  {
   "property": "C31",
   "status": "proved",
   "theorems": [
    "C31_derivative_closed",
    "C31_dual_closed"
   ],
   "note": "Values in an arbitrary commutative ring instead of float32; contents of uninitialised memory arbitrary."
  },
  {
   "property": "C32",
   "status": "proved",
   "theorems": [
    "C32_dual_is_adjoint"
   ],
   "note": "Arbitrary commutative ring; all shapes including extents 0 and 1."
  },
  {
   "property": "C33",
   "status": "proved",
   "theorems": [
    "C33_coarsen_refine"
   ],
   "note": "Commutative ring in which positive integers are invertible; reshapes and strided views modelled by C-order positions."
  },
  {
   "property": "C34",
   "status": "partial",
   "theorems": [
    "C34_product_partial",
    "C34_sum_partial",
    "C34_stencil_signature",
    "C34_allclose_integer",
    "C34_tolerance_refuted",
    "C34_degree_refuted"
   ],
   "note": "Proved for expressions typed by form degree and for diagonals on which allclose is exact; refuted for small diagonals and for derivatives that fit only by shape (findings)."
  },
  {
   "property": "C35",
   "status": "proved",
   "theorems": [
    "C35_transpose_adjoint",
    "C35_shape_signature"
   ],
   "note": "Commutative ring in place of floats."
  },
  {
   "property": "C36",
   "status": "partial",
   "theorems": [
    "C36_block_product_partial",
    "C36_block_product_refuted"
   ],
   "note": "All typed block operators; the exclusions of C34 are inherited and refuted."
  },
  {
   "property": "C37",
   "status": "partial",
   "theorems": [
    "C37_dense_round_trip_partial",
    "C37_dense_inverse_partial",
    "C37_three_blocks_refuted"
   ],
   "note": "One and two blocks; with three or more blocks from_dense always raises (finding)."
  },
  {
   "property": "C38",
   "status": "partial",
   "theorems": [
    "C38_checkerboard_partial",
    "C38_normal_diagonal_partial",
    "C38_odd_refuted"
   ],
   "note": "Even grids, all operators coupling neighbours, and instantiated for the normal equations of the canonical system in every dimension; wrong on odd periodic extents (finding)."
  },
  {
   "property": "C39",
   "status": "partial",
   "theorems": [
    "C39_canonical_symmetric",
    "C39_normal_partial",
    "C39_normal_refuted"
   ],
   "note": "Symmetry without restriction; normal equations when allclose is exact on hodge products; at spacing 1/100 in 3-D a term is dropped (finding)."
  },
  {
   "property": "C40",
   "status": "proved",
   "theorems": [
    "C40_cycle_contract",
    "C40_diffusion_fixed_point"
   ],
   "note": "Contract version for arbitrary equations; the diffusion equations meet it for all coefficient fields. Commutative ring in place of floats, 1/0 an arbitrary element, the coarse solver (scipy minres) an oracle assumed to keep exact solutions."
  },
  {
   "property": "C41",
   "status": "proved",
   "theorems": [
    "C41_hierarchy",
    "C41_diffusion_levels"
   ],
   "note": "Generic, and for diffusion with the exact condition on extents under which the hierarchy exists."
  },
  {
   "property": "C42",
   "status": "partial",
   "theorems": [
    "C42_split_merge_partial",
    "C42_merge_split_partial",
    "C42_equal_blocks_refuted",
    "C42_matrix_product",
    "C42_matrix_vector"
   ],
   "note": "Proved for blocks np.asarray keeps apart (not all of equal length); refuted for blocks of equal length."
  },
  {
   "property": "C43",
   "status": "proved",
   "theorems": [
    "C43_inverse",
    "C43_inverse_transpose",
    "C43_cofactors",
    "C43_null",
    "C43_null_differences",
    "C43_null_rank2_refuted"
   ],
   "note": "The statement is proved; C43_null_rank2_refuted records that null() can be the zero vector for a rank 2 matrix."
  },
  {
   "property": "C44",
   "status": "proved",
   "theorems": [
    "C44_orthogonal",
    "C44_determinant",
    "C44_quarter_turn",
    "C44_fixes_complement",
    "C44_angle"
   ],
   "note": ""
  },
  {
   "property": "C45",
   "status": "proved",
   "theorems": [
    "C45_volume_translation",
    "C45_no_boundary_translation",
    "C45_volume_reversed",
    "C45_tetrahedron"
   ],
   "note": ""
  },
  {
   "property": "C46",
   "status": "proved",
   "theorems": [
    "C46_clip_cut",
    "C46_children_boundary",
    "C46_orientation",
    "C46_positions",
    "C46_volume",
    "C46_clip_halfspace"
   ],
   "note": "Also proved: new vertices lie on the plane, the volume is unchanged, clip=True keeps exactly the part not above the plane."
  },
  {
   "property": "C47",
   "status": "proved",
   "theorems": [
    "C47_extrude_closed",
    "C47_extrude_succeeds",
    "C47_closed_refused"
   ],
   "note": ""
  },
  {
   "property": "C48",
   "status": "proved",
   "theorems": [
    "C48_weights",
    "C48_primal",
    "C48_dual"
   ],
   "note": ""
  },
  {
   "property": "C49",
   "status": "partial",
   "theorems": [
    "C49_adjacent_pairs_partial",
    "C49_falsy_refuted"
   ],
   "note": "Holds when all items are truthy; any falsy item before the last loses a pair (finding)."
  },
  {
   "property": "C50",
   "status": "proved",
   "theorems": [
    "C50_pascal_binomial",
    "C50_pascal_diverges"
   ],
   "note": "Outside 0 <= k <= n the recursion is proved not to end."
  },
  {
   "property": "C51",
   "status": "proved",
   "theorems": [
    "C51_accumulate"
   ],
   "note": ""
  },
  {
   "property": "C52",
   "status": "proved",
   "theorems": [
    "C52_normalize_l1"
   ],
   "note": "Exact rationals in place of floats."
  },
  {
   "property": "C53",
   "status": "partial",
   "theorems": [
    "C53_residual",
    "C53_converged_partial",
    "C53_converged_refuted",
    "C53_small_rhs",
    "C53_small_rhs_refuted"
   ],
   "note": "The residual invariant is proved for every exit. Refuted: the convergence test looks at the residual before the last update, and the absolute test on the direction ends the loop unsolved for small right hand sides."
  },
  {
   "property": "C54",
   "status": "partial",
   "theorems": [
    "C54_rows_partial",
    "C54_fine_vertices_refuted"
   ],
   "note": "Refuted: the operator has one row per vertex, edge and triangle, so that the row count is never that of the fine vertices; smooth=True always raises."
  },
  {
   "property": "C55",
   "status": "partial",
   "theorems": [
    "C55_is_oriented_sound",
    "C55_is_oriented_complete",
    "C55_is_oriented_disconnected_refuted"
   ],
   "note": "Sound always, complete on connected meshes; on disconnected meshes the answer depends on the solver (refuted)."
  },
  {
   "property": "C56",
   "status": "partial",
   "theorems": [
    "C56_averaging_N_partial"
   ],
   "note": "Codimension at most 5; beyond it the int8 path counts wrap as in C17."
  },
  {
   "property": "C57",
   "status": "proved",
   "theorems": [
    "C57_smoother_symmetric"
   ],
   "note": "Commutative ring in place of floats."
  },
  {
   "property": "C58",
   "status": "proved",
   "theorems": [
    "C58_coarsen_refine_adjoint"
   ],
   "note": "Commutative ring in which positive integers are invertible."
  },
  {
   "property": "C59",
   "status": "proved",
   "theorems": [
    "C59_constants"
   ],
   "note": "Commutative ring in which positive integers are invertible."
  },
  {
   "property": "C60",
   "status": "proved",
   "theorems": [
    "C60_loop_transfer",
    "C60_direct_transfer"
   ],
   "note": ""
  },
  {
   "property": "C61",
   "status": "proved",
   "theorems": [
    "C61_volume_gradient",
    "C61_normals_cancel"
   ],
   "note": ""
  },
  {
   "property": "C62",
   "status": "proved",
   "theorems": [
    "C62_terminates",
    "C62_exact",
    "C62_energy"
   ],
   "note": ""
  },
  {
   "property": "C63",
   "status": "partial",
   "theorems": [
    "C63_closest_contains",
    "C63_sample_affine",
    "C63_guess_partial",
    "C63_guess_refuted",
    "C63_fundamental_guess_refuted",
    "C63_unequal_refuted"
   ],
   "note": "Picking without a guess and exact affine sampling are proved for grids of equal boxes. Refuted: guesses are kept beyond the far side of their cube, pick_fundamental raises UnboundLocalError for correct guesses, and with unequal boxes the closest centroid may belong to another cube."
  },
  {
   "property": "C64",
   "status": "proved",
   "theorems": [
    "C64_fix_orientation",
    "C64_isolated_last_cube_fails",
    "C64_is_oriented_sound",
    "C64_is_oriented_complete",
    "C64_fixed_is_oriented"
   ],
   "note": ""
  },
  {
   "property": "C65",
   "status": "proved",
   "theorems": [
    "C65_boundary_none_iff",
    "C65_boundary_closed",
    "C65_boundary_elements",
    "C65_open_curve",
    "C65_inconsistent_raises",
    "C65_parent_idx",
    "C65_select_subset",
    "C65_select_wrong_length"
   ],
   "note": ""
  },
  {
   "property": "C66",
   "status": "proved",
   "theorems": [
    "C66_subdivide",
    "C66_domains",
    "C66_orientation",
    "C66_at_most_two",
    "C66_connected",
    "C66_boundary",
    "C66_is_oriented"
   ],
   "note": ""
  },
  {
   "property": "C67",
   "status": "proved",
   "theorems": [
    "C67_transfers",
    "C67_parts",
    "C67_matrices"
   ],
   "note": ""
  },
  {
   "property": "C68",
   "status": "partial",
   "theorems": [
    "C68_inherit_partial",
    "C68_inherit_refuted"
   ],
   "note": "False in general: edges of three-dimensional meshes are a counterexample (C68_inherit_refuted). Proved for vertices, faces of highest dimension and cubes in every dimension, hence for all levels up to dimension two."
  },
  {
   "property": "C69",
   "status": "partial",
   "theorems": [
    "C69_averaging_partial",
    "C69_dim6_refuted",
    "C69_degree_partial",
    "C69_averaging_N_partial",
    "C69_averaging_N_refuted"
   ],
   "note": "False in general: int8 overflow makes rows sum to -1 from six levels on (C69_dim6_refuted, C69_averaging_N_refuted) and degree wraps at 128. Proved up to five levels and 127 incident cubes."
  },
  {
   "property": "C70",
   "status": "proved",
   "theorems": [
    "C70_smooth",
    "C70_smooth_simplicial"
   ],
   "note": ""
  },
  {
   "property": "C71",
   "status": "partial",
   "theorems": [
    "C71_operator_partial",
    "C71_operator_default",
    "C71_convex",
    "C71_operator_refuted"
   ],
   "note": "False of vertices without crease elements, which smooth keeps and the operator sends to zero (C71_operator_refuted). Proved for all other vertices, so for all vertices where no chain of n-cubes is given."
  },
  {
   "property": "C72",
   "status": "partial",
   "theorems": [
    "C72_vertices",
    "C72_operator_partial",
    "C72_dim6_refuted"
   ],
   "note": "False at dimension six by int8 overflow (C72_dim6_refuted) and, smoothed, of vertices without creases (C71). Proved up to dimension five, smoothed where no chain of n-cubes is given."
  },
  {
   "property": "C73",
   "status": "proved",
   "theorems": [
    "C73_triangles",
    "C73_orientation",
    "C73_signs",
    "C73_operators"
   ],
   "note": ""
  },
  {
   "property": "C74",
   "status": "partial",
   "theorems": [
    "C74_triangles",
    "C74_orientation_partial",
    "C74_inherited_refuted",
    "C74_there_and_back",
    "C74_tetrahedra",
    "C74_tetrahedra_oriented_refuted",
    "C74_other_dimensions"
   ],
   "note": "False: the cubes of tetrahedra are never consistently oriented (C74_tetrahedra_oriented_refuted) and quads run against their triangle (C74_inherited_refuted). Proved: corners and counts in both dimensions; consistency, manifoldness, connectedness and boundary for triangles. Not stated for tetrahedra: manifoldness and boundary."
  },
  {
   "property": "C75",
   "status": "proved",
   "theorems": [
    "C75_point",
    "C75_defined",
    "C75_height",
    "C75_distances",
    "C75_degenerate",
    "C75_signed_unsigned",
    "C75_reorder",
    "C75_translate",
    "C75_linear",
    "C75_parts"
   ],
   "note": ""
  },
  {
   "property": "C76",
   "status": "partial",
   "theorems": [
    "C76_centre_partial",
    "C76_independent",
    "C76_circumcenter_partial",
    "C76_weighted",
    "C76_ratio",
    "C76_vertices",
    "C76_triangle",
    "C76_far_vertex_refuted",
    "C76_batch_refuted",
    "C76_scale_refuted",
    "C76_oracle"
   ],
   "note": "False as stated: the truncation of eigenvalues makes results depend on size and batch (C76_far_vertex_refuted, C76_batch_refuted, C76_scale_refuted). Proved: results are right when the eigenvalues of the batch spread less than the ratio, and for every batch from some ratio on; the weighted variant for all independent corners."
  },
  {
   "property": "C77",
   "status": "partial",
   "theorems": [
    "C77_normals_partial",
    "C77_unique",
    "C77_gradients_partial",
    "C77_wide",
    "C77_tolerance",
    "C77_moves",
    "C77_volume_gradient_refuted",
    "C77_segment",
    "C77_sliver_refuted",
    "C77_oracle"
   ],
   "note": "False as stated: simplex_gradients is the dimension times the derivative of the volume (C77_volume_gradient_refuted), flat simplices have no normals (C77_sliver_refuted), pinv raises ValueError for wide matrices (C77_wide). Proved: normals and gradients of all simplices whose singular values are not cut off, for every svd; segment_normals in all dimensions."
  },
  {
   "property": "C78",
   "status": "partial",
   "theorems": [
    "C78_fills",
    "C78_cone",
    "C78_translate",
    "C78_linear",
    "C78_turn",
    "C78_cut",
    "C78_normals",
    "C78_rows",
    "C78_area",
    "C78_vertex_areas_refuted",
    "C78_open_refuted",
    "C78_curve",
    "C78_turned_edge_refuted"
   ],
   "note": "False as stated: open surfaces are not refused (C78_open_refuted), vertex areas add up to twice the area (C78_vertex_areas_refuted), a closed line with a turned edge gets a wrong area (C78_turned_edge_refuted). The rest of the statement is proved for all closed surfaces and lines."
  },
  {
   "property": "C79",
   "status": "partial",
   "theorems": [
    "C79_com_partial",
    "C79_lifted",
    "C79_translate_refuted",
    "C79_outside_refuted"
   ],
   "note": "False as stated: unsigned volumes (C79_translate_refuted, C79_outside_refuted). Proved for surfaces all of whose triangles face away from the origin, or all towards it."
  },
  {
   "property": "C80",
   "status": "partial",
   "theorems": [
    "C80_shape",
    "C80_top_partial",
    "C80_top_excess",
    "C80_faces",
    "C80_faces_partial",
    "C80_dual_edges",
    "C80_total",
    "C80_triangles",
    "C80_obtuse_refuted"
   ],
   "note": "False as stated for tetrahedra with an obtuse face (C80_obtuse_refuted, exact factors in C80_top_excess and C80_faces). Proved for all triangulations, and in all dimensions when the centres of proper faces are inside them; the dual lengths and the total without such conditions."
  },
  {
   "property": "C81",
   "status": "proved",
   "theorems": [
    "C81_cotan"
   ],
   "note": "For triangulations in space of any dimension; angles by their cosines."
  },
  {
   "property": "C82",
   "status": "partial",
   "theorems": [
    "C82_dual_partial",
    "C82_delaunay",
    "C82_well_centered",
    "C82_three_refuted"
   ],
   "note": "False as stated when three simplices share a facet (C82_three_refuted). Proved with at most two simplices at a facet, in all dimensions from two on; positivity of the dual metric of well-centred meshes without that condition."
  },
  {
   "property": "C83",
   "status": "partial",
   "theorems": [
    "C83_primal_partial",
    "C83_sample_partial",
    "C83_components_refuted"
   ],
   "note": "False as stated on meshes of several parts (C83_components_refuted). Proved for connected oriented meshes all of whose (power) spheres are empty, in all dimensions from two on, with and without guess."
  },
  {
   "property": "C84",
   "status": "proved",
   "theorems": [
    "C84_dual"
   ],
   "note": ""
  },
  {
   "property": "C85",
   "status": "partial",
   "theorems": [
    "C85_labels",
    "C85_is_connected",
    "C85_split",
    "C85_cubes_refuted"
   ],
   "note": "Proved for simplicial meshes of dimension below 255; false for cubical meshes in which two common facets cancel (C85_cubes_refuted)."
  },
  {
   "property": "C86",
   "status": "partial",
   "theorems": [
    "C86_regions_partial",
    "C86_check_partial",
    "C86_surfaces",
    "C86_manifold_refuted",
    "C86_curves_refuted",
    "C86_solids_refuted",
    "C86_high_dimension_refuted"
   ],
   "note": "The count is proved up to dimension nine and the check is right for surfaces without edges of three triangles; false for curves, for edges of three triangles, for solids and from dimension ten on."
  },
  {
   "property": "C87",
   "status": "proved",
   "theorems": [
    "C87_arc",
    "C87_metric",
    "C87_split",
    "C87_off_sphere"
   ],
   "note": "Uses the axioms of the real numbers of the standard library."
  },
  {
   "property": "C88",
   "status": "partial",
   "theorems": [
    "C88_edge",
    "C88_opposite",
    "C88_circumcenter_partial",
    "C88_great_circle_refuted",
    "C88_triangle_partial",
    "C88_triangle_refuted",
    "C88_intersect_partial",
    "C88_intersect_refuted"
   ],
   "note": "Which of two opposite points is returned depends on the order of the arguments; nan for points of a great circle. Uses the axioms of the real numbers of the standard library."
  },
  {
   "property": "C89",
   "status": "partial",
   "theorems": [
    "C89_excess",
    "C89_order",
    "C89_congruent",
    "C89_cut",
    "C89_inside",
    "C89_needle_partial",
    "C89_point_refuted"
   ],
   "note": "Proved for corners that are not on one great circle and for two equal corners; false for three equal corners. Uses the axioms of the real numbers of the standard library."
  },
  {
   "property": "C90",
   "status": "proved",
   "theorems": [
    "C90_shape",
    "C90_edges",
    "C90_triangles",
    "C90_dual_edges",
    "C90_dual_cells",
    "C90_dual_arcs",
    "C90_total",
    "C90_refused"
   ],
   "note": "Uses the axioms of the real numbers of the standard library."
  },
  {
   "property": "C91",
   "status": "partial",
   "theorems": [
    "C91_transfer_partial",
    "C91_pieces_partial",
    "C91_refused",
    "C91_clockwise_refuted"
   ],
   "note": "Proved for triangles in counterclockwise order, refuted for clockwise ones; that the arcs between the centres and edge points cross is a hypothesis. Uses the axioms of the real numbers of the standard library."
  },
  {
   "property": "C92",
   "status": "proved",
   "theorems": [
    "C92_dual",
    "C92_primal",
    "C92_totals",
    "C92_refused"
   ],
   "note": "Exact rationals; embedding dimension equal to the dimension of the mesh. The bound of 128 boxes per element is part of the statement: with 128 the value is negated (int8 degree)."
  },
  {
   "property": "C93",
   "status": "partial",
   "theorems": [
    "C93_simplicial_partial",
    "C93_segments_refuted",
    "C93_regular_refuted",
    "C93_numbering"
   ],
   "note": "Holds for simplices with at least three corners whose svd values are not cut off (hypothesis regular, see C77); for segments and regular complexes the opposite velocity is found (refuted)."
  },
  {
   "property": "C94",
   "status": "partial",
   "theorems": [
    "C94_weights",
    "C94_faces",
    "C94_ring_partial",
    "C94_vertices_refuted"
   ],
   "note": "Weights and faces hold in full; around vertices linear functions are only reproduced if the cells are at the same distance (C94_ring_partial), and a fan of six acute triangles refutes the rest."
  },
  {
   "property": "C95",
   "status": "proved",
   "theorems": [
    "C95_sample",
    "C95_affine"
   ],
   "note": "The picking in the subdivided complex is an oracle with the contract proved (in part) by C83."
  },
  {
   "property": "C96",
   "status": "partial",
   "theorems": [
    "C96_equilateral",
    "C96_canonical",
    "C96_orientation_partial",
    "C96_orientation_refuted"
   ],
   "note": "Lengths, distances, centre and independence hold in every dimension; the orientation is that of the axes in odd dimensions only, refuted in every even one."
  },
  {
   "property": "C97",
   "status": "partial",
   "theorems": [
    "C97_minimal_partial",
    "C97_default_refuted",
    "C97_zero_refuted",
    "C97_solves_refuted"
   ],
   "note": "Minimal residual over the Krylov space, at most n passes, exact after n passes; nothing about the quality when a test ends the loop earlier. Refuted: default x0, right hand side zero, stopping only near the solution."
  }
 ]
}