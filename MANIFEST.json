{
 "claims": [
  {
   "property": "C01",
   "status": "proved",
   "theorems": [
    "C01_partition_of_unity",
    "C01_kronecker"
   ],
   "note": ""
  },
  {
   "property": "C02",
   "status": "proved",
   "theorems": [
    "C02_quadratic_reproduction",
    "C02_zero_area"
   ],
   "note": ""
  },
  {
   "property": "C03",
   "status": "proved",
   "theorems": [
    "C03_quadrature_exact",
    "C03_weights_and_points",
    "C03_supported",
    "C03_four_point_rule_degree4_refuted"
   ],
   "note": "Exactness in R; the 4-point rule is shown not to be exact at degree 4."
  },
  {
   "property": "C04",
   "status": "proved",
   "theorems": [
    "C04_element_properties"
   ],
   "note": ""
  },
  {
   "property": "C05",
   "status": "proved",
   "theorems": [
    "C05_totals_are_integrals",
    "C05_order_independent",
    "C05_join"
   ],
   "note": ""
  },
  {
   "property": "C06",
   "status": "proved",
   "theorems": [
    "C06_mesh_independence",
    "C06_boundary_formulas"
   ],
   "note": ""
  },
  {
   "property": "C07",
   "status": "proved",
   "theorems": [
    "C07_translation_totals",
    "C07_translation_centroidal"
   ],
   "note": ""
  },
  {
   "property": "C08",
   "status": "proved",
   "theorems": [
    "C08_rotation",
    "C08_mirror_x",
    "C08_mirror_y",
    "C08_scale"
   ],
   "note": ""
  },
  {
   "property": "C09",
   "status": "proved",
   "theorems": [
    "C09_positivity"
   ],
   "note": ""
  },
  {
   "property": "C10",
   "status": "proved",
   "theorems": [
    "C10_centroid"
   ],
   "note": ""
  },
  {
   "property": "C11",
   "status": "proved",
   "theorems": [
    "C11_principal_values",
    "C11_principal_axes",
    "C11_exact_branch",
    "C11_all_directions"
   ],
   "note": ""
  },
  {
   "property": "C12",
   "status": "proved",
   "theorems": [
    "C12_principal_global_inverse",
    "C12_isometry"
   ],
   "note": ""
  },
  {
   "property": "C13",
   "status": "proved",
   "theorems": [
    "C13_radii"
   ],
   "note": ""
  },
  {
   "property": "C14",
   "status": "proved",
   "theorems": [
    "C14_section_moduli",
    "C14_extreme_fibres",
    "C14_succeeds"
   ],
   "note": ""
  },
  {
   "property": "C15",
   "status": "proved",
   "theorems": [
    "C15_yield_moment"
   ],
   "note": ""
  },
  {
   "property": "C16",
   "status": "proved",
   "theorems": [
    "C16_frame_agrees",
    "C16_frame_fails"
   ],
   "note": ""
  },
  {
   "property": "C17",
   "status": "proved",
   "theorems": [
    "C17_node_order"
   ],
   "note": ""
  },
  {
   "property": "C18",
   "status": "proved",
   "theorems": [
    "C18_half_planes"
   ],
   "note": ""
  },
  {
   "property": "C19",
   "status": "proved",
   "theorems": [
    "C19_stiffness",
    "C19_kernel_is_constants"
   ],
   "note": ""
  },
  {
   "property": "C20",
   "status": "proved",
   "theorems": [
    "C20_entries"
   ],
   "note": ""
  },
  {
   "property": "C21",
   "status": "proved",
   "theorems": [
    "C21_multiplier",
    "C21_vanishes"
   ],
   "note": ""
  },
  {
   "property": "C22",
   "status": "proved",
   "theorems": [
    "C22_torsion_constant"
   ],
   "note": ""
  },
  {
   "property": "C23",
   "status": "proved",
   "theorems": [
    "C23_shear_loads_balanced"
   ],
   "note": ""
  },
  {
   "property": "C24",
   "status": "proved",
   "theorems": [
    "C24_trefftz"
   ],
   "note": ""
  },
  {
   "property": "C25",
   "status": "proved",
   "theorems": [
    "C25_shear_areas",
    "C25_coupling",
    "C25_composite_refuted"
   ],
   "note": ""
  },
  {
   "property": "C26",
   "status": "proved",
   "theorems": [
    "C26_constants_do_not_matter",
    "C26_gamma",
    "C26_composite_refuted"
   ],
   "note": ""
  },
  {
   "property": "C27",
   "status": "proved",
   "theorems": [
    "C27_opposite",
    "C27_integrals",
    "C27_mirror",
    "C27_aligned"
   ],
   "note": ""
  },
  {
   "property": "C28",
   "status": "proved",
   "theorems": [
    "C28_superposition",
    "C28_no_coupling"
   ],
   "note": ""
  },
  {
   "property": "C29",
   "status": "proved",
   "theorems": [
    "C29_resultants",
    "C29_principal"
   ],
   "note": ""
  },
  {
   "property": "C30",
   "status": "proved",
   "theorems": [
    "C30_principal_bending",
    "C30_aligned"
   ],
   "note": ""
  },
  {
   "property": "C31",
   "status": "proved",
   "theorems": [
    "C31_torsion_resultants"
   ],
   "note": ""
  },
  {
   "property": "C32",
   "status": "proved",
   "theorems": [
    "C32_shear_resultants"
   ],
   "note": ""
  },
  {
   "property": "C33",
   "status": "proved",
   "theorems": [
    "C33_combined"
   ],
   "note": ""
  },
  {
   "property": "C34",
   "status": "proved",
   "theorems": [
    "C34_averaging",
    "C34_groups_separate"
   ],
   "note": ""
  },
  {
   "property": "C35",
   "status": "proved",
   "theorems": [
    "C35_extrapolation"
   ],
   "note": "Proved with bound 2e-14 relative to the largest nodal value."
  },
  {
   "property": "C36",
   "status": "proved",
   "theorems": [
    "C36_no_effect",
    "C36_history",
    "C36_stress_value"
   ],
   "note": "The shapely STRtree of get_stress_at_points is an oracle (query)."
  },
  {
   "property": "C37",
   "status": "proved",
   "theorems": [
    "C37_local_coord",
    "C37_point_within"
   ],
   "note": ""
  },
  {
   "property": "C38",
   "status": "proved",
   "theorems": [
    "C38_one_per_point",
    "C38_none_outside",
    "C38_normal_stress",
    "C38_interpolation"
   ],
   "note": ""
  },
  {
   "property": "C39",
   "status": "proved",
   "theorems": [
    "C39_before",
    "C39_shear_before",
    "C39_after",
    "C39_direct"
   ],
   "note": ""
  },
  {
   "property": "C40",
   "status": "proved",
   "theorems": [
    "C40_available",
    "C40_only",
    "C40_raises",
    "C40_value",
    "C40_documented",
    "C40_history_independent",
    "C40_shape_factors",
    "C40_shape_factors_default",
    "C40_shape_factors_order",
    "C40_refuted"
   ],
   "note": "C40_refuted shows the one exception to history independence: a failed frame analysis leaves torsion constant 0. Libraries (solvers, meshing, plastic search) are oracles."
  },
  {
   "property": "C41",
   "status": "proved",
   "theorems": [
    "C41_mode",
    "C41_exactly_one"
   ],
   "note": ""
  },
  {
   "property": "C42",
   "status": "proved",
   "theorems": [
    "C42_transformed"
   ],
   "note": ""
  },
  {
   "property": "C43",
   "status": "proved",
   "theorems": [
    "C43_partition",
    "C43_equal_objects_refuted"
   ],
   "note": ""
  },
  {
   "property": "C44",
   "status": "proved",
   "theorems": [
    "C44_no_mesh",
    "C44_success",
    "C44_materials"
   ],
   "note": ""
  },
  {
   "property": "C45",
   "status": "proved",
   "theorems": [
    "C45_direct_acceptance",
    "C45_cgs_acceptance",
    "C45_cgs_plain",
    "C45_cgs_bound_refuted",
    "C45_multiplier",
    "C45_direct_analysis",
    "C45_warping_run",
    "C45_frame_run"
   ],
   "note": ""
  },
  {
   "property": "C46",
   "status": "proved",
   "theorems": [
    "C46_force_split",
    "C46_monotone",
    "C46_bracket",
    "C46_balanced_line"
   ],
   "note": "shapely's split is an oracle assumed to cut exactly along lines that cross the bounding box (S_Plastic.covers); met by every triangulated section (P_Plastic7.mesh_geom_ok)."
  },
  {
   "property": "C47",
   "status": "proved",
   "theorems": [
    "C47_plastic_modulus",
    "C47_completes",
    "C47_exact"
   ],
   "note": "brentq is an oracle with the tolerance contract S_Plastic.root_within; exact cutting as in C46."
  },
  {
   "property": "C48",
   "status": "proved",
   "theorems": [
    "C48_shape_factor"
   ],
   "note": "Same oracles as C47; the 11-axis carries the 1e-12 tolerance of the principal angle."
  },
  {
   "property": "C49",
   "status": "proved",
   "theorems": [
    "C49_default_factors",
    "C49_composite_factors",
    "C49_at_least_yield"
   ],
   "note": ""
  },
  {
   "property": "C50",
   "status": "proved",
   "theorems": [
    "C50_facets_closed_rings",
    "C50_geometry_edges",
    "C50_create_facets"
   ],
   "note": ""
  },
  {
   "property": "C51",
   "status": "proved",
   "theorems": [
    "C51_compile",
    "C51_control_points",
    "C51_assign_control_point",
    "C51_hole_marks",
    "C51_island_refuted"
   ],
   "note": ""
  },
  {
   "property": "C52",
   "status": "proved",
   "theorems": [
    "C52_compound_regions",
    "C52_compound_voids",
    "C52_compound_errors",
    "C52_compound_dangling",
    "C52_compound_dangling_index",
    "C52_dangling",
    "C52_ends_ignored",
    "C52_dangling_end_refuted",
    "C52_compound_outside",
    "C52_compound_shared_start_refuted",
    "C52_from_points_loops",
    "C52_few_points",
    "C52_export_rebuild",
    "C52_control_count",
    "C52_too_few_holes",
    "C52_no_hole_points_refuted"
   ],
   "note": ""
  },
  {
   "property": "C53",
   "status": "proved",
   "theorems": [
    "C53_shift",
    "C53_rotate",
    "C53_box_center",
    "C53_mirror",
    "C53_mirror_center",
    "C53_mirror_center_control_refuted",
    "C53_area_exact",
    "C53_area_rounded",
    "C53_shift_additive",
    "C53_shift_inverse",
    "C53_mirror_involutive",
    "C53_shift_additive_any_offset_refuted",
    "C53_compound_shift",
    "C53_compound_rotate",
    "C53_compound_mirror",
    "C53_compound_mirror_center_refuted"
   ],
   "note": ""
  },
  {
   "property": "C54",
   "status": "proved",
   "theorems": [
    "C54_align_to",
    "C54_align_to_point",
    "C54_align_to_point_inner_left",
    "C54_align_to_point_inner_refuted",
    "C54_unknown_side",
    "C54_compound_align_to",
    "C54_align_center",
    "C54_compound_align_center"
   ],
   "note": ""
  },
  {
   "property": "C55",
   "status": "proved",
   "theorems": [
    "C55_shift_points",
    "C55_bad_index",
    "C55_absolute_zero_refuted",
    "C55_tolerance_refuted",
    "C55_lost_elements"
   ],
   "note": ""
  },
  {
   "property": "C56",
   "status": "proved",
   "theorems": [
    "C56_disjoint",
    "C56_single_polygon_refuted"
   ],
   "note": ""
  },
  {
   "property": "C57",
   "status": "proved",
   "theorems": [
    "C57_line_segment",
    "C57_grouping"
   ],
   "note": ""
  },
  {
   "property": "C58",
   "status": "proved",
   "theorems": [
    "C58_flatten",
    "C58_add",
    "C58_mesh_aligned"
   ],
   "note": ""
  },
  {
   "property": "C59",
   "status": "proved",
   "theorems": [
    "C59_circular_section",
    "C59_circular_section_by_area",
    "C59_elliptical_section",
    "C59_elliptical_hollow_section",
    "C59_circular_hollow_section",
    "C59_polygon_hollow_section",
    "C59_polygon_hollow_few_sides",
    "C59_polygon_hollow_merged"
   ],
   "note": ""
  },
  {
   "property": "C60",
   "status": "proved",
   "theorems": [
    "C60_rounding",
    "C60_rectangular_section",
    "C60_triangular_section",
    "C60_triangular_radius_section",
    "C60_cruciform_section",
    "C60_i_section",
    "C60_mono_i_section",
    "C60_channel_section",
    "C60_tee_section",
    "C60_angle_section",
    "C60_angle_section_refuted",
    "C60_angle_section_toe_too_large",
    "C60_cee_section",
    "C60_zed_section",
    "C60_short_lip_refuted",
    "C60_rectangular_hollow_section",
    "C60_tapered_flange_i_section",
    "C60_tapered_flange_channel",
    "C60_box_girder_section",
    "C60_bulb_section"
   ],
   "note": ""
  },
  {
   "property": "C61",
   "status": "proved",
   "theorems": [
    "C61_draw_radius",
    "C61_draw_radius_zero"
   ],
   "note": ""
  },
  {
   "property": "C62",
   "status": "proved",
   "theorems": [
    "C62_layers",
    "C62_equal_layers",
    "C62_unequal_layers_refuted"
   ],
   "note": ""
  },
  {
   "property": "C63",
   "status": "proved",
   "theorems": [
    "C63_rectangular",
    "C63_tee",
    "C63_circular",
    "C63_column",
    "C63_column_one_row",
    "C63_side_bars_refuted",
    "C63_no_bars",
    "C63_few_bars"
   ],
   "note": "Proved for rectangular, tee, circular and rectangular-column sections under the guard that the bars fit: the compound is the concrete with the bars as holes, then exactly the bars asked for, at the stated places (rows, lattice, circle). What shapely's difference and buffer must do is stated (cuts, insets) and shown satisfiable. Deviations proved: side bars with an area and no diameter are put twice at the left face; a filled column with n_x = 1 has all bars at the left cover; no bars at all is a ValueError."
  },
  {
   "property": "C64",
   "status": "proved",
   "theorems": [
    "C64_rectangular_wall",
    "C64_cee_wall",
    "C64_tee_wall",
    "C64_single_lift_core",
    "C64_double_lift_core_a",
    "C64_double_lift_core_b_single",
    "C64_stairwell",
    "C64_double_lift_core_b_double",
    "C64_double_lift_core_b_double_refuted",
    "C64_double_lift_core_b_short_nibs",
    "C64_doors_refused"
   ],
   "note": "All seven wall and core builders with one or two layers: the concrete is the rectangle less the openings, each bar lies on a prescribed line, bars of a line are equally spaced at no more than the spacing, all are at least cover + dia/2 inside a wall, no two coincide. The exception in the statement (double_lift_core_b with two layers) is the _refuted theorem."
  },
  {
   "property": "C65",
   "status": "proved",
   "theorems": [
    "C65_bar",
    "C65_chan",
    "C65_chan1",
    "C65_chan2",
    "C65_cross",
    "C65_h",
    "C65_i1",
    "C65_l",
    "C65_tee",
    "C65_tee1",
    "C65_tee2",
    "C65_zed",
    "C65_hat",
    "C65_fcross",
    "C65_box",
    "C65_box1",
    "C65_gbox",
    "C65_i",
    "C65_i_recovery_refuted",
    "C65_hexa",
    "C65_hexa_check_refuted",
    "C65_hat_check_refuted",
    "C65_fcross_check_refuted",
    "C65_dbox",
    "C65_dbox_check_refuted",
    "C65_rod",
    "C65_tube",
    "C65_tube2",
    "C65_hat1",
    "C65_refused"
   ],
   "note": "Proved for all 24 builders. Rectilinear sections: the winding number of the outline equals, at every point, the number of plates that contain it, the plates do not overlap, and the areas agree; the recovery points are on the outline after one common translation. Extra conditions not checked by the program are needed for hexa, hat, fcross and dbox, and each is shown necessary (_check_refuted); the recovery points of nastran_i miss the section if the top flange is wider (_i_recovery_refuted). Tubes are the difference of two rods (see C77). hat1 is exact for dimensions with 12 decimals. The double box assumes of shapely's difference what C63 assumes (cuts)."
  },
  {
   "property": "C66",
   "status": "proved",
   "theorems": [
    "C66_homogeneous_effective_moduli"
   ],
   "note": ""
  },
  {
   "property": "C67",
   "status": "proved",
   "theorems": [
    "C67_cells",
    "C67_totals",
    "C67_warping",
    "C67_warping_exact",
    "C67_tags",
    "C67_text",
    "C67_mapping",
    "C67_mapping_refuted",
    "C67_width_refuted",
    "C67_errors",
    "C67_types"
   ],
   "note": "Number formatting is a parameter (every format). C67_totals: area and first moments equal, second moments at most those of the section. C67_warping_exact: with an exact solver on a connected section the exported function solves the weak torsion problem about the origin. The mapping theorem has the guard [applicable] (no name is part of another word); C67_mapping_refuted shows it is needed, C67_width_refuted that wrapped lines exceed max_width."
  },
  {
   "property": "C68",
   "status": "proved",
   "theorems": [
    "C68_effective_moduli_bounds",
    "C68_area_weighted_means"
   ],
   "note": ""
  },
  {
   "property": "C69",
   "status": "proved",
   "theorems": [
    "C69_geometry_mesh",
    "C69_geometry_mesh_error",
    "C69_compound_mesh"
   ],
   "note": ""
  },
  {
   "property": "C70",
   "status": "proved",
   "theorems": [
    "C70_scale_moduli",
    "C70_scale_warping"
   ],
   "note": ""
  },
  {
   "property": "C71",
   "status": "proved",
   "theorems": [
    "C71_unchanged_geometry",
    "C71_remesh_warping",
    "C71_remesh_frame"
   ],
   "note": "The unqualified claim is false of the code; proved for unchanged geometry, with the exact behaviour after re-meshing."
  },
  {
   "property": "C72",
   "status": "proved",
   "theorems": [
    "C72_shear_centre"
   ],
   "note": ""
  },
  {
   "property": "C73",
   "status": "proved",
   "theorems": [
    "C73_solver_independent"
   ],
   "note": ""
  },
  {
   "property": "C74",
   "status": "proved",
   "theorems": [
    "C74_nodal_normal",
    "C74_element_values"
   ],
   "note": ""
  },
  {
   "property": "C75",
   "status": "proved",
   "theorems": [
    "C75_unique_solution",
    "C75_analysis_exists",
    "C75_disjoint_singular"
   ],
   "note": ""
  },
  {
   "property": "C76",
   "status": "proved",
   "theorems": [
    "C76_point_above_line",
    "C76_above"
   ],
   "note": ""
  },
  {
   "property": "C77",
   "status": "proved",
   "theorems": [
    "C77_difference",
    "C77_difference_compound",
    "C77_union",
    "C77_intersection",
    "C77_symmetric_difference",
    "C77_errors",
    "C77_succeeds",
    "C77_control_point",
    "C77_compound_materials_refuted",
    "C77_vanished_member_refuted",
    "C77_compound_control_point"
   ],
   "note": ""
  },
  {
   "property": "C78",
   "status": "proved",
   "theorems": [
    "C78_offset",
    "C78_offset_region",
    "C78_offset_holes",
    "C78_offset_failure",
    "C78_compound_erosion",
    "C78_compound_zero",
    "C78_compound_dilation",
    "C78_compound_dilation_refuted",
    "C78_offset_split"
   ],
   "note": ""
  },
  {
   "property": "C79",
   "status": "proved",
   "theorems": [
    "C79_split",
    "C79_no_line",
    "C79_compound_split"
   ],
   "note": ""
  },
  {
   "property": "C80",
   "status": "proved",
   "theorems": [
    "C80_super_t_girder",
    "C80_super_t_refused",
    "C80_super_t_web_refuted",
    "C80_i_girder",
    "C80_i_girder_refused"
   ],
   "note": "Dimensions: webs from 8 to 300, flange from 25 to 800, width at least 226 more than the nominal one. Every horizontal line crosses the outline once upwards and once downwards as described by the trapezia (shaped). C80_super_t_web_refuted: the web is more than 7 thinner at the bottom than asked."
  },
  {
   "property": "C81",
   "status": "proved",
   "theorems": [
    "C81_values",
    "C81_combined",
    "C81_no_coupling"
   ],
   "note": "For every calculate_stress result (M_Stress.calc_stress). Keys and their meaning are listed in S_StressPost (direct_keys, combined_keys)."
  },
  {
   "property": "C82",
   "status": "proved",
   "theorems": [
    "C82_mohr",
    "C82_region"
   ],
   "note": "np.linalg.eig and inv, trifinder and LinearTriInterpolator are oracles with their documented behaviour (eigen_ok, exact_find, linear_interp; instances are given). The orthogonality of the eigenvectors is not assumed but proved or shown not to matter (repeated eigenvalues)."
  },
  {
   "property": "C83",
   "status": "proved",
   "theorems": [
    "C83_axes",
    "C83_plot"
   ],
   "note": "The limits are those matplotlib reports when the axes are drawn; numpy's argsort is any sort by the first column (an instance is given)."
  },
  {
   "property": "C84",
   "status": "proved",
   "theorems": [
    "C84_results",
    "C84_transformed",
    "C84_mesh_info"
   ],
   "note": "A table is the list of its rows; the text of a number (format fmt) and the look of the table are not modelled."
  },
  {
   "property": "C85",
   "status": "proved",
   "theorems": [
    "C85_contours",
    "C85_every_element_once",
    "C85_errors",
    "C85_zero_in_levels",
    "C85_vectors",
    "C85_vectors_unknown"
   ],
   "note": "A plot is the list of what tricontourf and quiver receive (triangles, values, levels); the look (axes, colour bar text, matplotlib's own interpolation) is not modelled. The automatic scale of quiver is a function argument. C85_zero_in_levels: in a composite section the levels always include 0."
  },
  {
   "property": "C86",
   "status": "proved",
   "theorems": [
    "C86_mesh_colors",
    "C86_mesh_legend",
    "C86_mesh_lines",
    "C86_mask_length",
    "C86_mask_triangles",
    "C86_mask_colors",
    "C86_warping",
    "C86_no_warping",
    "C86_mask_colors_refuted"
   ],
   "note": "matplotlib's Normalize, ListedColormap, the node/triangle rule of tripcolor and its treatment of masked triangles are modelled; the drawing itself is not."
  },
  {
   "property": "C87",
   "status": "proved",
   "theorems": [
    "C87_marks",
    "C87_dangling",
    "C87_geometry",
    "C87_compound"
   ],
   "note": "A plot is the list of the lines, markers and annotations that matplotlib receives."
  },
  {
   "property": "C88",
   "status": "proved",
   "theorems": [
    "C88_clt",
    "C88_composite",
    "C88_composite_moduli",
    "C88_composite_principal",
    "C88_polygon",
    "C88_symmetric_x",
    "C88_symmetric_y",
    "C88_moduli",
    "C88_rectangular_section",
    "C88_i_section",
    "C88_mono_i_section",
    "C88_channel_section",
    "C88_tee_section",
    "C88_angle_section",
    "C88_cruciform_section",
    "C88_cee_section",
    "C88_zed_section",
    "C88_rectangular_hollow_section",
    "C88_rectangle",
    "C88_i_closed",
    "C88_triangular_section",
    "C88_rectangles",
    "C88_plates"
   ],
   "note": "End-to-end: library function, rounding, mesh that fills the polygon (same boundary), section built, arbitrary history, getters. Dimensions on the 12-decimal grid so that rounding changes nothing; fillet and toe radius 0 for the plate formulas."
  },
  {
   "property": "C89",
   "status": "proved",
   "theorems": [
    "C89_clt",
    "C89_clt_balanced",
    "C89_parts",
    "C89_parts_principal",
    "C89_polygon",
    "C89_rectangle",
    "C89_i_section",
    "C89_rectangular_hollow_section",
    "C89_channel_section",
    "C89_tee_section",
    "C89_rectangle_shape_factors",
    "C89_cruciform_section",
    "C89_mono_i_section",
    "C89_angle_section",
    "C89_aligned",
    "C89_rectangle_principal",
    "C89_i_section_principal",
    "C89_rectangles",
    "C89_axes_exist",
    "C89_two_layers",
    "C89_plates",
    "C89_cee_section",
    "C89_zed_section",
    "C89_zed_any"
   ],
   "note": "Admissible stress field on the rectangles against the upper bound of C47: the plastic moment is force times arm; then C40 for the getters. The polygons handed to the plastic analysis are assumed to fill the outline moved to its centroid; dimensions on the 12-decimal grid, sharp corners."
  },
  {
   "property": "C90",
   "status": "proved",
   "theorems": [
    "C90_moved_section",
    "C90_moved_principal",
    "C90_moved_principal_same",
    "C90_moved_warping",
    "C90_translated",
    "C90_turned",
    "C90_scaled",
    "C90_mirrored",
    "C90_images_exist"
   ],
   "note": "Finite element fields of an element and of its relisted image under a similarity correspond quadrature point by quadrature point; energy and load forms are pulled back and the gradients of the solutions are unique. Constants that depend on the values of the warping function need a connected mesh. Principal-axis results need the axes to be found (ixx not within the code's tolerance of i11) unless the map keeps the axes."
  },
  {
   "property": "C91",
   "status": "proved",
   "theorems": [
    "C91_symmetric_about_x",
    "C91_symmetric_about_y",
    "C91_antisymmetric_warping",
    "C91_half_turn",
    "C91_quarter_turn"
   ],
   "note": "C90 for a mesh that is its own image. Meshes made by the mesh generator need not be symmetric; the theorem is about meshes that are."
  },
  {
   "property": "C92",
   "status": "proved",
   "theorems": [
    "C92_perimeter",
    "C92_start_and_direction",
    "C92_extent",
    "C92_moved",
    "C92_compound",
    "C92_get_perimeter",
    "C92_rectangular_section",
    "C92_triangular_section",
    "C92_triangular_radius_section",
    "C92_circular_section",
    "C92_cruciform_section",
    "C92_i_section",
    "C92_mono_i_section",
    "C92_channel_section",
    "C92_tee_section",
    "C92_angle_section",
    "C92_cee_section",
    "C92_zed_section",
    "C92_quarter",
    "C92_rectangular_hollow_section",
    "C92_circular_hollow_section",
    "C92_box_girder_section",
    "C92_area_and_centroid",
    "C92_area_and_centroid_of_section"
   ],
   "note": "Up to the rounding of vertices to 12 decimals, bounded explicitly. Hollow sections assume that shapely's difference has the outer ring as its exterior. Cee and zed sections for lips longer than radius and thickness; the other shapes are covered by C92_perimeter only."
  },
  {
   "property": "C93",
   "status": "proved",
   "theorems": [
    "C93_overlap_warning",
    "C93_overlaps",
    "C93_disjoint",
    "C93_overlapping",
    "C93_every_overlap_refuted"
   ],
   "note": "shapely's unary_union(...).area enters as the area of the union of cells. C93_every_overlap_refuted: overlaps below 1e-9 of the total area are not reported."
  },
  {
   "property": "C94",
   "status": "proved",
   "theorems": [
    "C94_moved_stresses",
    "C94_moved_stresses_same",
    "C94_axes_follow",
    "C94_stress_at_points",
    "C94_mirror_symmetric",
    "C94_bound_exists",
    "C94_stresses_exist",
    "C94_half_turn"
   ],
   "note": "Exact (C94_moved_stresses_same, C94_stress_at_points) for images whose elements list their corners in the same order; within 2e-15 of the largest stress for all others (C94_moved_stresses), a bound that always exists (C94_bound_exists). Stresses of m11 and m22 need the principal axes of the image to be the images of the axes, which C94_axes_follow gives whenever the analysis finds the axes of both sections or the map keeps the coordinate directions."
  },
  {
   "property": "C95",
   "status": "proved",
   "theorems": [
    "C95_refinement",
    "C95_parts",
    "C95_added_material",
    "C95_stiffer"
   ],
   "note": "Refinement: every element is replaced by triangles that tile it (same boundary, corners inside, same material); the coarse mesh is conforming. Parts may be numbered in any way. An example gives a triangle, the triangle cut in two, and its halves."
  },
  {
   "property": "C96",
   "status": "proved",
   "theorems": [
    "C96_dxf",
    "C96_dxf_errors",
    "C96_3dm",
    "C96_compound_3dm",
    "C96_encoding",
    "C96_encoding_refuted"
   ],
   "note": "What cad_to_shapely and rhino_shapely_interop find in the file is an argument of the model. Geometry.from_rhino_encoding leaves out all surfaces but the first without a message (C96_encoding_refuted)."
  },
  {
   "property": "C97",
   "status": "proved",
   "theorems": [
    "C97_upper",
    "C97_lower",
    "C97_elastic",
    "C97_rectangle",
    "C97_equilateral"
   ],
   "note": "Solid sections (the stress function vanishes on the whole outline); the sides that belong to one element only are the outline. The upper bound is for every section. Examples give a square of two elements and a triangle of one."
  },
  {
   "property": "C98",
   "status": "proved",
   "theorems": [
    "C98_extremal",
    "C98_refinement",
    "C98_lower",
    "C98_rectangle"
   ],
   "note": "Zero effective Poisson's ratio, which section.py uses for every section without materials; with another ratio the shear areas can even be negative (C25_composite_refuted). The stress fields have continuous derivatives in the whole plane."
  },
  {
   "property": "C99",
   "status": "proved",
   "theorems": [
    "C99_lower",
    "C99_hollow_rectangle",
    "C99_bredt"
   ],
   "note": "The stress functions have continuous derivatives in the whole plane. The hollow rectangle has sharp corners inside and outside; library sections with corner radii are approached by C99_lower only."
  },
  {
   "property": "C100",
   "status": "proved",
   "theorems": [
    "C100_error",
    "C100_equilateral",
    "C100_limit",
    "C100_uniform"
   ],
   "note": "The warping and stress functions have continuous derivatives in the whole plane; the bounds on the third derivatives are needed on the elements only. Sections with re-entrant corners, whose warping function has unbounded derivatives, are outside C100_error; for those C97 and C99 give the lower bound and C95 monotonicity."
  },
  {
   "property": "C101",
   "status": "proved",
   "theorems": [
    "C101_error",
    "C101_rectangle",
    "C101_limit",
    "C101_uniform"
   ],
   "note": "Error bound of fourth order for the reciprocal shear areas of every section without materials with a smooth warping function; the rectangle with explicit constants (5/6 b d) and the limit. The warping function has continuous derivatives in the whole plane; the effective Poisson's ratio of a section without materials is zero in the code, so the exact shear stresses are those of the theory with zero Poisson's ratio."
  },
  {
   "property": "C102",
   "status": "proved",
   "theorems": [
    "C102_torsion",
    "C102_torsion_bound",
    "C102_shear",
    "C102_shear_bound",
    "C102_rectangle",
    "C102_equilateral",
    "C102_uniform_rectangle",
    "C102_uniform_equilateral"
   ],
   "note": "Identities between the squared error of the stress fields inside the elements (before the extrapolation to the nodes) and the error of J or of the shear area, bounds of fourth order, explicit constants for the equilateral triangle and the rectangle, limits for uniform meshes. The exact shear stresses are those of the theory with zero Poisson's ratio, which the code uses for sections without materials. C38 links the field to the values at points."
  },
  {
   "property": "C103",
   "status": "proved",
   "theorems": [
    "C103_gap",
    "C103_bound",
    "C103_rectangle",
    "C103_uniform"
   ],
   "note": "Bound of the error of the elasticity shear centre (x_se, y_se) by the error of the shear area, bound of second order in the element size, explicit constant for the rectangle and the limit for its uniform meshes. The exact shear stresses are those of the theory with zero Poisson's ratio, which the code uses for sections without materials."
  },
  {
   "property": "C104",
   "status": "proved",
   "theorems": [
    "C104_given_axes",
    "C104_own_figure",
    "C104_own_figure_alone",
    "C104_raises",
    "C104_selection",
    "C104_bad_index",
    "C104_row_index",
    "C104_mode",
    "C104_filename_refuted"
   ],
   "note": ""
  },
  {
   "property": "C105",
   "status": "proved",
   "theorems": [
    "C105_nastran_hexa",
    "C105_nastran_bar",
    "C105_nastran_chan",
    "C105_nastran_chan1",
    "C105_nastran_chan2",
    "C105_nastran_cross",
    "C105_nastran_h",
    "C105_nastran_i",
    "C105_nastran_i1",
    "C105_nastran_l",
    "C105_nastran_tee",
    "C105_nastran_tee1",
    "C105_nastran_tee2",
    "C105_nastran_zed",
    "C105_nastran_hat",
    "C105_nastran_fcross",
    "C105_nastran_box",
    "C105_nastran_box1",
    "C105_nastran_gbox",
    "C105_nastran_dbox",
    "C105_nastran_hat1"
   ],
   "note": "Every ring is rewritten to the boundary of its plates by splitting and cancelling edges; Green on the plates gives the moments (C88), C89 the plastic moments. hat1 is a compound of two geometries. The hexagon is the polygon of C88 with its moments worked out; its plastic moduli and the round tubes are not in these theorems."
  }
 ]
}