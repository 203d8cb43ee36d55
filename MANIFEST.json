{
 "claims": [
  {
   "property": "C01",
   "status": "proved",
   "theorems": [
    "C01_lookup",
    "C01_every_key_has_components"
   ],
   "note": ""
  },
  {
   "property": "C02",
   "status": "proved",
   "theorems": [
    "C02_add_child_effect"
   ],
   "note": ""
  },
  {
   "property": "C03",
   "status": "proved",
   "theorems": [
    "C03_add_child_refuses"
   ],
   "note": ""
  },
  {
   "property": "C04",
   "status": "proved",
   "theorems": [
    "C04_setitem",
    "C04_setitem_refuted"
   ],
   "note": "The claim for all keys is false and refuted (C04_setitem_refuted: keys ending in '/' or of the form '/k'); the property states it for every other key."
  },
  {
   "property": "C05",
   "status": "proved",
   "theorems": [
    "C05_membership",
    "C05_membership_refuted"
   ],
   "note": "The claim for all keys is false and refuted (C05_membership_refuted: KeyError for a missing parent, True for 'a/'); the property is stated for keys without trailing slash."
  },
  {
   "property": "C06",
   "status": "proved",
   "theorems": [
    "C06_unflatten_flatten"
   ],
   "note": ""
  },
  {
   "property": "C07",
   "status": "proved",
   "theorems": [
    "C07_order",
    "C07_keys",
    "C07_keys_refuted"
   ],
   "note": "Distinct resolvable keys need slash-free child keys; refuted otherwise (C07_keys_refuted)."
  },
  {
   "property": "C08",
   "status": "proved",
   "theorems": [
    "C08_map",
    "C08_copy"
   ],
   "note": ""
  },
  {
   "property": "C09",
   "status": "proved",
   "theorems": [
    "C09_accumulate",
    "C09_any_operation",
    "C09_initial_value"
   ],
   "note": ""
  },
  {
   "property": "C10",
   "status": "proved",
   "theorems": [
    "C10_node_height"
   ],
   "note": ""
  },
  {
   "property": "C11",
   "status": "proved",
   "theorems": [
    "C11_fresh_key",
    "C11_fresh_key_three_trees",
    "C11_successive_keys_differ",
    "C11_raw_keys_clash"
   ],
   "note": "Categories are class names (no slash). Raw add_item keys alone can clash (C11_raw_keys_clash)."
  },
  {
   "property": "C12",
   "status": "proved",
   "theorems": [
    "C12_polygon_is_a_loop"
   ],
   "note": ""
  },
  {
   "property": "C13",
   "status": "proved",
   "theorems": [
    "C13_class_tests",
    "C13_returned_primitives_conform",
    "C13_base_constructor",
    "C13_arguments",
    "C13_line_surplus_ignored"
   ],
   "note": "Line silently drops surplus points (C13_line_surplus_ignored), as the property says."
  },
  {
   "property": "C14",
   "status": "proved",
   "theorems": [
    "C14_quad_takes_four"
   ],
   "note": ""
  },
  {
   "property": "C15",
   "status": "proved",
   "theorems": [
    "C15_axes_default",
    "C15_axes_given",
    "C15_axes_given_all",
    "C15_surplus_ignored"
   ],
   "note": "A wrong number of supplied prims is truncated by zip (C15_surplus_ignored), as the property says."
  },
  {
   "property": "C16",
   "status": "proved",
   "theorems": [
    "C16_unique_values"
   ],
   "note": ""
  },
  {
   "property": "C17",
   "status": "proved",
   "theorems": [
    "C17_rebuild_identity",
    "C17_rebuild_new_values"
   ],
   "note": ""
  },
  {
   "property": "C18",
   "status": "proved",
   "theorems": [
    "C18_polygon_unknowns"
   ],
   "note": ""
  },
  {
   "property": "C19",
   "status": "proved",
   "theorems": [
    "C19_pack_unpack"
   ],
   "note": ""
  },
  {
   "property": "C20",
   "status": "proved",
   "theorems": [
    "C20_call_concatenates_outputs",
    "C20_call_returns_documented_value",
    "C20_outputs_of_a_tree",
    "C20_selection"
   ],
   "note": "Domain: argument lists of primitives; the iff needs every node to derive parameters for each of its children (arity_ok), the returned value direction does not."
  },
  {
   "property": "C21",
   "status": "proved",
   "theorems": [
    "C21_declared_sizes",
    "C21_call_size",
    "C21_declared_sizes_refuted"
   ],
   "note": "CoincidentLines declares 2 and returns 4 (C21_declared_sizes_refuted), hence also what is built on it; the property covers every other shipped construction and constraint, arrays and grids of every size."
  },
  {
   "property": "C22",
   "status": "proved",
   "theorems": [
    "C22_sum_exists_iff"
   ],
   "note": ""
  },
  {
   "property": "C23",
   "status": "proved",
   "theorems": [
    "C23_sum_node_by_node",
    "C23_sum_adds_values",
    "C23_sum_adds_values_refuted"
   ],
   "note": "False for summands whose children use primitives, e.g. Width + Width (C23_sum_adds_values_refuted); the property says exactly when values add."
  },
  {
   "property": "C24",
   "status": "proved",
   "theorems": [
    "C24_scalar_multiple",
    "C24_negation",
    "C24_scalar_construction"
   ],
   "note": ""
  },
  {
   "property": "C25",
   "status": "proved",
   "theorems": [
    "C25_scalar_division"
   ],
   "note": ""
  },
  {
   "property": "C26",
   "status": "proved",
   "theorems": [
    "C26_integer_power",
    "C26_real_power",
    "C26_scalar_construction_power"
   ],
   "note": ""
  },
  {
   "property": "C27",
   "status": "proved",
   "theorems": [
    "C27_number_target",
    "C27_array_target",
    "C27_array_target_compound",
    "C27_shipped_depth",
    "C27_depth_two_refuted",
    "C27_array_target_refuted",
    "C27_target_lengths"
   ],
   "note": "Refuted for depth two (C27_depth_two_refuted: residuals vanish silently) and for array targets of compound constructions (C27_array_target_refuted); the property states the cases that hold."
  },
  {
   "property": "C28",
   "status": "proved",
   "theorems": [
    "C28_map_evaluates_each"
   ],
   "note": ""
  },
  {
   "property": "C29",
   "status": "proved",
   "theorems": [
    "C29_partial_application",
    "C29_nothing_frozen",
    "C29_nothing_frozen_refuted"
   ],
   "note": "With nothing frozen the call fails (C29_nothing_frozen_refuted, C29_nothing_frozen)."
  },
  {
   "property": "C30",
   "status": "proved",
   "theorems": [
    "C30_chunk"
   ],
   "note": ""
  },
  {
   "property": "C31",
   "status": "proved",
   "theorems": [
    "C31_invalid_arguments_raise",
    "C31_valid_arguments_pass"
   ],
   "note": ""
  },
  {
   "property": "C32",
   "status": "proved",
   "theorems": [
    "C32_constructor",
    "C32_arity_refuted"
   ],
   "note": "The arity check never fires (C32_arity_refuted); the property says exactly what the constructor rejects."
  },
  {
   "property": "C33",
   "status": "proved",
   "theorems": [
    "C33_adding_numbers_refuted",
    "C33_products",
    "C33_scalar_times_number_refuted"
   ],
   "note": "Sums with numbers and Scalar * number raise (C33_adding_numbers_refuted, C33_scalar_times_number_refuted); the property states the products."
  },
  {
   "property": "C34",
   "status": "proved",
   "theorems": [
    "C34_fix",
    "C34_coincident",
    "C34_directed_distance",
    "C34_x_distance",
    "C34_y_distance"
   ],
   "note": ""
  },
  {
   "property": "C35",
   "status": "proved",
   "theorems": [
    "C35_length",
    "C35_directed_length",
    "C35_x_length",
    "C35_y_length",
    "C35_horizontal",
    "C35_vertical"
   ],
   "note": ""
  },
  {
   "property": "C36",
   "status": "proved",
   "theorems": [
    "C36_relative_length",
    "C36_midpoint_x",
    "C36_midpoint_y",
    "C36_orthogonal",
    "C36_parallel"
   ],
   "note": ""
  },
  {
   "property": "C37",
   "status": "proved",
   "theorems": [
    "C37_angle_modulo_full_turn",
    "C37_angle_constraint_sound",
    "C37_angle_range_refuted"
   ],
   "note": "The docstring's range is refuted (C37_angle_range_refuted: 135 to -135 degrees gives -270); the property is correctness modulo a full turn."
  },
  {
   "property": "C38",
   "status": "proved",
   "theorems": [
    "C38_collinear"
   ],
   "note": ""
  },
  {
   "property": "C39",
   "status": "proved",
   "theorems": [
    "C39_coincident_lines"
   ],
   "note": ""
  },
  {
   "property": "C40",
   "status": "proved",
   "theorems": [
    "C40_point_on_line",
    "C40_point_to_line",
    "C40_relative_point_on_line",
    "C40_reversing"
   ],
   "note": ""
  },
  {
   "property": "C41",
   "status": "proved",
   "theorems": [
    "C41_box"
   ],
   "note": ""
  },
  {
   "property": "C42",
   "status": "proved",
   "theorems": [
    "C42_width",
    "C42_height",
    "C42_box",
    "C42_aspect_ratio"
   ],
   "note": ""
  },
  {
   "property": "C43",
   "status": "proved",
   "theorems": [
    "C43_inner_margin",
    "C43_outer_margin",
    "C43_other_sides_raise"
   ],
   "note": ""
  },
  {
   "property": "C44",
   "status": "proved",
   "theorems": [
    "C44_outer_margin_array"
   ],
   "note": ""
  },
  {
   "property": "C45",
   "status": "proved",
   "theorems": [
    "C45_rectilinear_grid"
   ],
   "note": "For r, c >= 1."
  },
  {
   "property": "C46",
   "status": "proved",
   "theorems": [
    "C46_grid"
   ],
   "note": "For r, c >= 1, boxes of positive size and parameter arrays of the documented lengths (other lengths: C55)."
  },
  {
   "property": "C47",
   "status": "proved",
   "theorems": [
    "C47_row_major",
    "C47_bijective",
    "C47_three_dimensions_refuted"
   ],
   "note": "Refuted for three dimensions (C47_three_dimensions_refuted); the property is for at most two, all that the grids use."
  },
  {
   "property": "C48",
   "status": "proved",
   "theorems": [
    "C48_x_axis",
    "C48_y_axis",
    "C48_on_boxes",
    "C48_opposite_side",
    "C48_opposite_side_domain"
   ],
   "note": ""
  },
  {
   "property": "C49",
   "status": "proved",
   "theorems": [
    "C49_x_label",
    "C49_y_label"
   ],
   "note": ""
  },
  {
   "property": "C50",
   "status": "proved",
   "theorems": [
    "C50_visibility_restored",
    "C50_other_positions",
    "C50_visibility_refuted"
   ],
   "note": "With a tick position other than the four sides measuring raises and leaves the label hidden (C50_visibility_refuted, C50_other_positions). An exception inside matplotlib's own measuring is not modelled."
  },
  {
   "property": "C51",
   "status": "proved",
   "theorems": [
    "C51_lockstep",
    "C51_lockstep_shipped",
    "C51_lockstep_refuted"
   ],
   "note": "Refuted for parameter arrays of wrong length (C51_lockstep_refuted). Proved for every history, with failing calls, of constraints that derive parameters for all their parts; in particular for all shipped constraints with documented parameters (C51_lockstep_shipped)."
  },
  {
   "property": "C52",
   "status": "proved",
   "theorems": [
    "C52_atomic",
    "C52_atomic_shipped",
    "C52_validation_first",
    "C52_atomic_refuted"
   ],
   "note": "Refuted in general (C52_atomic_refuted: Grid with number parameters leaves the constraint behind). Proved when the key and parameter trees can be built, and for rejection by validation."
  },
  {
   "property": "C53",
   "status": "proved",
   "theorems": [
    "C53_residual",
    "C53_residual_shipped",
    "C53_no_constraints"
   ],
   "note": "Keys of added constraints without slash."
  },
  {
   "property": "C54",
   "status": "proved",
   "theorems": [
    "C54_update"
   ],
   "note": "For layouts made of shipped constraints at slash-free keys. 'Input not modified' at the level of objects is C77_update."
  },
  {
   "property": "C55",
   "status": "proved",
   "theorems": [
    "C55_short_sizes",
    "C55_surplus_ignored",
    "C55_lengths_refuted"
   ],
   "note": "Wrong margin lengths and surplus entries are accepted (C55_lengths_refuted); the property says which lengths raise and what is ignored."
  },
  {
   "property": "C56",
   "status": "proved",
   "theorems": [
    "C56_add_prim",
    "C56_add_prims"
   ],
   "note": ""
  },
  {
   "property": "C57",
   "status": "proved",
   "theorems": [
    "C57_newton_trace",
    "C57_newton_returns"
   ],
   "note": "For layouts whose primitives are a well-formed tree with consistent array identities (C71) and backends returning a correction of the right size."
  },
  {
   "property": "C58",
   "status": "proved",
   "theorems": [
    "C58_structure",
    "C58_no_iterations"
   ],
   "note": "Same hypotheses as C57; for minimize, an optimiser whose iterates have the size of the start."
  },
  {
   "property": "C59",
   "status": "proved",
   "theorems": [
    "C59_reported_error",
    "C59_converged_refuted"
   ],
   "note": "C59_converged_refuted: the reported error is that of the iterate before the last correction; the property says exactly which iterate it measures."
  },
  {
   "property": "C60",
   "status": "proved",
   "theorems": [
    "C60_affine_layouts"
   ],
   "note": "The affine constraints are those listed in affine_shipped (AffineList.v) and margin arrays of every length; every history of calls. The backend is trusted to solve solvable linear systems exactly (solves_linear_systems)."
  },
  {
   "property": "C61",
   "status": "proved",
   "theorems": [
    "C61_dispatch"
   ],
   "note": "The layout is not touched by construction (values)."
  },
  {
   "property": "C62",
   "status": "proved",
   "theorems": [
    "C62_minimize_history_refuted",
    "C62_minimize_history"
   ],
   "note": "For minimize abs_errs are sums of squares and rel_errs relative to the first callback (C62_minimize_history_refuted); the property states that meaning."
  },
  {
   "property": "C63",
   "status": "proved",
   "theorems": [
    "C63_geometry",
    "C63_succeeds",
    "C63_subplots"
   ],
   "note": ""
  },
  {
   "property": "C64",
   "status": "proved",
   "theorems": [
    "C64_label_position_refuted",
    "C64_label_position"
   ],
   "note": "Labels are not measured from the figure's lower left corner (C64_label_position_refuted); the property is relative to the layout origin."
  },
  {
   "property": "C65",
   "status": "proved",
   "theorems": [
    "C65_nearest_side",
    "C65_tick_side",
    "C65_ticks_follow_axis",
    "C65_position_constraint"
   ],
   "note": "Zero axis thickness allowed. The warning for misaligned axes is not modelled."
  },
  {
   "property": "C66",
   "status": "proved",
   "theorems": [
    "C66_axes_by_name",
    "C66_axes_given"
   ],
   "note": ""
  },
  {
   "property": "C67",
   "status": "proved",
   "theorems": [
    "C67_opacity",
    "C67_fades_inwards"
   ],
   "note": "matplotlib's own drawing is not modelled; colours are in C94."
  },
  {
   "property": "C68",
   "status": "proved",
   "theorems": [
    "C68_rotation_refuted",
    "C68_rotation"
   ],
   "note": "Refuted for lines pointing downwards (C68_rotation_refuted); the property states both cases."
  },
  {
   "property": "C69",
   "status": "proved",
   "theorems": [
    "C69_x_axis_thickness",
    "C69_y_axis_thickness"
   ],
   "note": "Tick positions other than the four sides raise (C50)."
  },
  {
   "property": "C70",
   "status": "proved",
   "theorems": [
    "C70_parts_are_served",
    "C70_constructed_primitives_are_whole"
   ],
   "note": ""
  },
  {
   "property": "C71",
   "status": "proved",
   "theorems": [
    "C71_trees_well_formed",
    "C71_iteration_keys_resolve",
    "C71_shipped_constraints",
    "C71_arrays_consistent"
   ],
   "note": "Given trees of primitives/constraints are well-formed when handed in (all constructors': C72; all shipped constraints': C71_shipped_constraints). Sharing of nodes: C75-C78."
  },
  {
   "property": "C72",
   "status": "proved",
   "theorems": [
    "C72_constructors_allocate",
    "C72_defaults_share_nothing"
   ],
   "note": ""
  },
  {
   "property": "C73",
   "status": "proved",
   "theorems": [
    "C73_each_primitive_once",
    "C73_point",
    "C73_line",
    "C73_zero_line",
    "C73_quadrilateral",
    "C73_polygon",
    "C73_drawing"
   ],
   "note": ""
  },
  {
   "property": "C74",
   "status": "proved",
   "theorems": [
    "C74_point",
    "C74_line",
    "C74_quadrilateral",
    "C74_polygon",
    "C74_polygon_zero",
    "C74_axes"
   ],
   "note": ""
  },
  {
   "property": "C75",
   "status": "proved",
   "theorems": [
    "C75_lookup",
    "C75_one_object_changes",
    "C75_every_holder",
    "C75_others_untouched",
    "C75_unshared",
    "C75_cycle",
    "C75_assignment"
   ],
   "note": "Each theorem starts from nodes that show finite trees (arbitrary sharing between them); cycles arise only as in C75_cycle."
  },
  {
   "property": "C76",
   "status": "proved",
   "theorems": [
    "C76_copy",
    "C76_independent"
   ],
   "note": ""
  },
  {
   "property": "C77",
   "status": "proved",
   "theorems": [
    "C77_update",
    "C77_later_calls",
    "C77_out_of_step",
    "C77_wrong_parameters"
   ],
   "note": "C77_out_of_step and C77_wrong_parameters are the parenthesised findings."
  },
  {
   "property": "C78",
   "status": "proved",
   "theorems": [
    "C78_empty",
    "C78_refinement",
    "C78_flat",
    "C78_lockstep",
    "C78_nested_key"
   ],
   "note": ""
  },
  {
   "property": "C79",
   "status": "proved",
   "theorems": [
    "C79_every_constraint",
    "C79_figure",
    "C79_figure_exact",
    "C79_solver_output",
    "C79_quads_qualify",
    "C79_readme"
   ],
   "note": "C79_readme assumes a backend that solves the consistent linear systems (one is given: C79_readme_case)."
  },
  {
   "property": "C80",
   "status": "proved",
   "theorems": [
    "C80_value",
    "C80_residual",
    "C80_shipped"
   ],
   "note": ""
  },
  {
   "property": "C81",
   "status": "proved",
   "theorems": [
    "C81_value_size",
    "C81_residual_size"
   ],
   "note": ""
  },
  {
   "property": "C82",
   "status": "proved",
   "theorems": [
    "C82_left_alone",
    "C82_ideal_backend"
   ],
   "note": "Exact arithmetic; the backend is assumed to differentiate and to return the minimum-norm least-squares solution, as jax.jacfwd and np.linalg.lstsq do (BackendSpec.v). Such backends are constructed: bk83, and C82_ideal_backend gives one that is exact on every residual function (partial derivatives as limits, normal equations)."
  },
  {
   "property": "C83",
   "status": "proved",
   "theorems": [
    "C83_least_squares",
    "C83_solves_systems"
   ],
   "note": "Exact arithmetic; the backend is assumed to differentiate and to return the minimum-norm least-squares solution, as jax.jacfwd and np.linalg.lstsq do (BackendSpec.v). One such backend is constructed (bk83). C83_solves_systems discharges the assumption of C60 and C79."
  },
  {
   "property": "C84",
   "status": "proved",
   "theorems": [
    "C84_bystanders"
   ],
   "note": "Exact arithmetic; the backend is assumed to differentiate and to return the minimum-norm least-squares solution, as jax.jacfwd and np.linalg.lstsq do (BackendSpec.v). Such backends are constructed: bk83, and C82_ideal_backend gives one that is exact on every residual function (partial derivatives as limits, normal equations)."
  },
  {
   "property": "C85",
   "status": "proved",
   "theorems": [
    "C85_order"
   ],
   "note": "Exact arithmetic; the backend is assumed to differentiate and to return the minimum-norm least-squares solution, as jax.jacfwd and np.linalg.lstsq do (BackendSpec.v). One such backend is constructed (bk83). same_gradients: the gradient depends only on the function on vectors of the right length."
  },
  {
   "property": "C86",
   "status": "proved",
   "theorems": [
    "C86_same_solutions",
    "C86_repeated"
   ],
   "note": "Exact arithmetic, exact backends as in C83 (BackendSpec.v)."
  },
  {
   "property": "C87",
   "status": "proved",
   "theorems": [
    "C87_stationary",
    "C87_descent",
    "C87_unmoved"
   ],
   "note": "Exact arithmetic, exact backends as in C82 (BackendSpec.v)."
  },
  {
   "property": "C88",
   "status": "proved",
   "theorems": [
    "C88_value",
    "C88_residual",
    "C88_shipped",
    "C88_history",
    "C88_solve",
    "C88_centroid",
    "C88_centroid_affine"
   ],
   "note": "Exact arithmetic, exact backends as in C82 (BackendSpec.v); C88_solve also assumes that gradients commute with translations (as derivatives do; bk83 satisfies it). Primitives whose arrays are empty or pairs, as the shipped ones have."
  },
  {
   "property": "C89",
   "status": "proved",
   "theorems": [
    "C89_order",
    "C89_moved",
    "C89_never_worse",
    "C89_bystanders",
    "C89_centroid",
    "C89_optimiser_exists"
   ],
   "note": "Exact arithmetic; scipy's L-BFGS-B is represented by the sequence of intermediate results it reports, with the properties named in the statement (MinSpec.v). C89_optimiser_exists constructs one optimiser with all of them (steepest descent)."
  },
  {
   "property": "C90",
   "status": "proved",
   "theorems": [
    "C90_int",
    "C90_slice",
    "C90_range",
    "C90_all",
    "C90_parts",
    "C90_keys",
    "C90_types",
    "C90_added"
   ],
   "note": "Python's list indexing and slicing is modelled after CPython (list_subscript, PySlice_Unpack, PySlice_AdjustIndices) with unbounded integers."
  },
  {
   "property": "C91",
   "status": "proved",
   "theorems": [
    "C91_map",
    "C91_leaves",
    "C91_unflatten",
    "C91_roundtrip",
    "C91_sorted",
    "C91_twice",
    "C91_structure",
    "C91_order_refuted"
   ],
   "note": "jax sorts dict keys when flattening and rebuilds the dict in that order; every node value is a leaf (an array, as primitives require). The claim that order survives is refuted (C91_order_refuted)."
  },
  {
   "property": "C92",
   "status": "proved",
   "theorems": [
    "C92_grid"
   ],
   "note": "Exact satisfaction (residual zero); that Newton reaches it from default primitives is C99. C92_case gives a layout and a tree that satisfy all hypotheses."
  },
  {
   "property": "C93",
   "status": "proved",
   "theorems": [
    "C93_same_text",
    "C93_equal",
    "C93_copy",
    "C93_commas_refuted",
    "C93_sharing_refuted"
   ],
   "note": "The printing of values is arbitrary (any function to texts). Refuted without the condition on texts (C93_commas_refuted)."
  },
  {
   "property": "C94",
   "status": "proved",
   "theorems": [
    "C94_figure",
    "C94_shades",
    "C94_different",
    "C94_colors_refuted"
   ],
   "note": "Colour maps are arbitrary functions in C94_figure; the last two sentences are for maps that pick a table entry by the integer part of 256*x, as matplotlib's 256-colour maps do. What a failing primitive drew before its exception is not modelled."
  },
  {
   "property": "C95",
   "status": "proved",
   "theorems": [
    "C95_residual",
    "C95_measured",
    "C95_every_constraint",
    "C95_succeeds",
    "C95_figure",
    "C95_ticks",
    "C95_labels"
   ],
   "note": "Exact satisfaction; that Newton reaches it is not claimed (label distances are not linear). The labels need the figure fixed at the origin (C64 refutes the claim elsewhere). C95_case (P_RoomCase.v) is a layout, drawn axes and a tree that satisfy all hypotheses."
  },
  {
   "property": "C96",
   "status": "proved",
   "theorems": [
    "C96_points",
    "C96_lines",
    "C96_unit",
    "C96_midpoints",
    "C96_quad",
    "C96_margins",
    "C96_direction",
    "C96_constant",
    "C96_vector",
    "C96_vector_refuted"
   ],
   "note": "C96_vector_refuted: a Vector over a node with children does not return the vector (FIXME in constructions.py)."
  },
  {
   "property": "C97",
   "status": "proved",
   "theorems": [
    "C97_solve",
    "C97_layouts_kept",
    "C97_independent",
    "C97_again",
    "C97_later_calls"
   ],
   "note": "Objects made while solving are modelled; under jax.jit the intermediate trees are only made when tracing."
  },
  {
   "property": "C98",
   "status": "proved",
   "theorems": [
    "C98_grid_height",
    "C98_grid_width",
    "C98_colorbar",
    "C98_two_axes"
   ],
   "note": "Exact satisfaction (residual zero). The three cases C98_grid_case, C98_colorbar_case and C98_two_axes_case are layouts with trees that satisfy all hypotheses; the origin point of the two-axes notebook (which only fixes the place) is left out there."
  },
  {
   "property": "C99",
   "status": "proved",
   "theorems": [
    "C99_one_step",
    "C99_grid"
   ],
   "note": "Backend exact in real arithmetic (exists: C82_ideal_backend). That some upright satisfying tree exists is a hypothesis; it may be any tree, not the one found. For grids C99_grid adds what is drawn. C99_case: the figure of C92, from unit squares."
  },
  {
   "property": "C100",
   "status": "proved",
   "theorems": [
    "C100_axes_qualify",
    "C100_draws",
    "C100_draws_named",
    "C100_solved",
    "C100_workflow"
   ],
   "note": "Division by zero is an error in the model (numpy would give inf or nan), so the figure is assumed not degenerate. C100_workflow_case: the README's layout, all sizes; C100_case: an unsolved layout with twin axes."
  },
  {
   "property": "C101",
   "status": "proved",
   "theorems": [
    "C101_heights",
    "C101_converges",
    "C101_always_solved_refuted",
    "C101_upright_refuted",
    "C101_always_finite_refuted"
   ],
   "note": "Backend exact in real arithmetic (exists: C82_ideal_backend). For 2W < k|W+1-k| < 3W only the recursion (C101_heights) is stated. Division by zero is an error in the model; numpy gives inf/nan there. C101_case: W = 6 with k = 2, 3, 8, 10."
  },
  {
   "property": "C102",
   "status": "proved",
   "theorems": [
    "C102_two_iterations",
    "C102_as_asked",
    "C102_positive_refuted"
   ],
   "note": "Backend exact in real arithmetic (exists: C82_ideal_backend). For H + k = 1 the first iteration gives width 0, where the length is not differentiable; nothing is stated. C102_case: 6 by 2 inches; height 1/2 and ratio 1/4 (mirrored)."
  },
  {
   "property": "C103",
   "status": "proved",
   "theorems": [
    "C103_update_subplots",
    "C103_subplots",
    "C103_figure"
   ],
   "note": "Real arithmetic: with floats exact only for powers of two. C103_case: the figure of C63_case, doubled."
  },
  {
   "property": "C104",
   "status": "proved",
   "theorems": [
    "C104_value",
    "C104_satisfied",
    "C104_layout"
   ],
   "note": "Real arithmetic. UnitSpec.v lists which parameters are lengths and which are ratios, for every shipped constraint. The factors differ between residuals (k, k^2, 1), so a tolerance does not simply scale. C104_case: the README layout in inches and in centimetres."
  },
  {
   "property": "C105",
   "status": "proved",
   "theorems": [
    "C105_missing_primitive",
    "C105_wrong_primitives",
    "C105_wrong_parameters",
    "C105_key_refused",
    "C105_accepted",
    "C105_generated"
   ],
   "note": "Over any number type. Rejections hold for every layout and constraint whose class name has no slash; acceptance for shipped constraints with parameters of the documented form after histories of such (otherwise C52_atomic_refuted). C105_case shows every answer on one layout."
  },
  {
   "property": "C106",
   "status": "proved",
   "theorems": [
    "C106_solve",
    "C106_figure"
   ],
   "note": "Real arithmetic, exact backend (gradients and minimum-norm least squares). Only for satisfiable constraints: otherwise the minimised sum of squares weights residuals of different dimension differently in different units. C106_case: the box of C60 in inches and in centimetres."
  },
  {
   "property": "C107",
   "status": "proved",
   "theorems": [
    "C107_value",
    "C107_shipped",
    "C107_satisfied",
    "C107_layout",
    "C107_angle_refuted"
   ],
   "note": "Real arithmetic; an angle is given by its cosine and sine. C107_angle_refuted: the Angle construction is a difference of two arctan2 values (constructions.py:1016-1023), so the lines in directions 135 and -135 degrees measure -270 degrees, and 90 degrees after half a turn. Box, Width, Height, margins, Horizontal, Vertical, X/Y distances and Fix refer to the axes and are not in the list. C107_case: a square at 0 and at about 53 degrees."
  },
  {
   "property": "C108",
   "status": "proved",
   "theorems": [
    "C108_already_true",
    "C108_further"
   ],
   "note": "C108_already_true and C108_further, for affine constraints; the linear backend is assumed to return the shortest least-squares solution (BackendSpec.exact_on). C108_case pins the width of a figure whose other constraints leave it free."
  },
  {
   "property": "C109",
   "status": "proved",
   "theorems": [
    "C109_stable",
    "C109_coordinates",
    "C109_again",
    "C109_on_the_way"
   ],
   "note": "C109_stable, C109_coordinates, C109_again, for affine constraints, whether they can be satisfied or not; the linear backend is assumed to return the shortest least-squares solution (BackendSpec.exact_on). C109_case: the figure of C108 started from two quadrilaterals; C109_again_case: started from its own solution. C109_on_the_way: starting anywhere on the line through start and solution, up to the solution, gives the same solution (C109_on_the_way_case: from halfway)."
  },
  {
   "property": "C110",
   "status": "proved",
   "theorems": [
    "C110_parts",
    "C110_compromise"
   ],
   "note": "C110_parts, for affine constraints that can be satisfied together; C110_compromise, the same when they contradict each other (the solution is then the best compromise): the constraints on the part are a sub-collection of all, up to order; in both, the linear backend is assumed to return the shortest least-squares solution (BackendSpec.exact_on). C110_case, C110_compromise_case: two quadrilaterals with constraints of their own, in the second case contradictory ones."
  },
  {
   "property": "C111",
   "status": "proved",
   "theorems": [
    "C111_value",
    "C111_side",
    "C111_shipped",
    "C111_satisfied",
    "C111_layout",
    "C111_axes"
   ],
   "note": "Real arithmetic; a mirror line is given by the cosine and sine of twice its direction. C111_value, C111_side, C111_shipped, C111_satisfied, C111_layout; C111_axes: about an axis, Horizontal, Vertical and Box too. The constraint crPointToLineDistance asks for a signed distance and is therefore not in the list (C111_side says what happens to it). C111_case: a square and its mirror image about a slanted line; C111_axes_case: a square with Box, about the y axis."
  }
 ]
}
