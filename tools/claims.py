c("C01","proved")
c("C02","proved")
c("C03","proved")
c("C04","proved","The claim for all keys is false and refuted (C04_setitem_refuted: keys ending in '/' or of the form '/k'); the property states it for every other key.")
c("C05","proved","The claim for all keys is false and refuted (C05_membership_refuted: KeyError for a missing parent, True for 'a/'); the property is stated for keys without trailing slash.")
c("C06","proved")
c("C07","proved",'Distinct resolvable keys need slash-free child keys; refuted otherwise (C07_keys_refuted).')
c("C08","proved")
c("C09","proved")
c("C10","proved")
c("C11","proved","Categories are class names (no slash). Raw add_item keys alone can clash (C11_raw_keys_clash).")
c("C12","proved")
c("C13","proved",'Line silently drops surplus points (C13_line_surplus_ignored), as the property says.')
c("C14","proved")
c("C15","proved",'A wrong number of supplied prims is truncated by zip (C15_surplus_ignored), as the property says.')
c("C16","proved")
c("C17","proved")
c("C18","proved")
c("C19","proved")
c("C30","proved")
c("C20","proved","Domain: argument lists of primitives; the iff needs every node to derive parameters for each of its children (arity_ok), the returned value direction does not.")
c("C22","proved")
c("C23","proved",'False for summands whose children use primitives, e.g. Width + Width (C23_sum_adds_values_refuted); the property says exactly when values add.')
c("C24","proved")
c("C25","proved")
c("C26","proved")
c("C27","proved",'Refuted for depth two (C27_depth_two_refuted: residuals vanish silently) and for array targets of compound constructions (C27_array_target_refuted); the property states the cases that hold.')
c("C28","proved")
c("C29","proved",'With nothing frozen the call fails (C29_nothing_frozen_refuted, C29_nothing_frozen).')
c("C31","proved")
c("C32","proved",'The arity check never fires (C32_arity_refuted); the property says exactly what the constructor rejects.')
c("C33","proved",'Sums with numbers and Scalar * number raise (C33_adding_numbers_refuted, C33_scalar_times_number_refuted); the property states the products.')
c("C34","proved")
c("C35","proved")
c("C36","proved")
c("C37","proved","The docstring's range is refuted (C37_angle_range_refuted: 135 to -135 degrees gives -270); the property is correctness modulo a full turn.")
c("C38","proved")
c("C39","proved")
c("C40","proved")
c("C41","proved")
c("C42","proved")
c("C43","proved")
c("C48","proved")
c("C49","proved")
c("C50","proved","With a tick position other than the four sides measuring raises and leaves the label hidden (C50_visibility_refuted, C50_other_positions). An exception inside matplotlib's own measuring is not modelled.")
c("C69","proved","Tick positions other than the four sides raise (C50).")
c("C44","proved")
c("C45","proved","For r, c >= 1.")
c("C46","proved","For r, c >= 1, boxes of positive size and parameter arrays of the documented lengths (other lengths: C55).")
c("C47","proved",'Refuted for three dimensions (C47_three_dimensions_refuted); the property is for at most two, all that the grids use.')
c("C51","proved",'Refuted for parameter arrays of wrong length (C51_lockstep_refuted). Proved for every history, with failing calls, of constraints that derive parameters for all their parts; in particular for all shipped constraints with documented parameters (C51_lockstep_shipped).')
c("C52","proved",'Refuted in general (C52_atomic_refuted: Grid with number parameters leaves the constraint behind). Proved when the key and parameter trees can be built, and for rejection by validation.')
c("C53","proved","Keys of added constraints without slash.")
c("C54","proved","For layouts made of shipped constraints at slash-free keys. 'Input not modified' at the level of objects is C77_update.")
c("C55","proved",'Wrong margin lengths and surplus entries are accepted (C55_lengths_refuted); the property says which lengths raise and what is ignored.')
c("C56","proved")
c("C70","proved")
c("C21","proved",'CoincidentLines declares 2 and returns 4 (C21_declared_sizes_refuted), hence also what is built on it; the property covers every other shipped construction and constraint, arrays and grids of every size.')
c("C57","proved","For layouts whose primitives are a well-formed tree with consistent array identities (C71) and backends returning a correction of the right size.")
c("C58","proved","Same hypotheses as C57; for minimize, an optimiser whose iterates have the size of the start.")
c("C59","proved",'C59_converged_refuted: the reported error is that of the iterate before the last correction; the property says exactly which iterate it measures.')
c("C61","proved","The layout is not touched by construction (values).")
c("C62","proved",'For minimize abs_errs are sums of squares and rel_errs relative to the first callback (C62_minimize_history_refuted); the property states that meaning.')
c("C71","proved","Given trees of primitives/constraints are well-formed when handed in (all constructors': C72; all shipped constraints': C71_shipped_constraints). Sharing of nodes: C75-C78.")
c("C72","proved")
c("C60","proved","The affine constraints are those listed in affine_shipped (AffineList.v) and margin arrays of every length; every history of calls. The backend is trusted to solve solvable linear systems exactly (solves_linear_systems).")

c("C63","proved")
c("C64","proved","Labels are not measured from the figure's lower left corner (C64_label_position_refuted); the property is relative to the layout origin.")
c("C65","proved","Zero axis thickness allowed. The warning for misaligned axes is not modelled.")
c("C66","proved")
c("C67","proved","matplotlib's own drawing is not modelled; colours are in C94.")
c("C68","proved",'Refuted for lines pointing downwards (C68_rotation_refuted); the property states both cases.')
c("C73","proved")
c("C74","proved")
c("C75","proved","Each theorem starts from nodes that show finite trees (arbitrary sharing between them); cycles arise only as in C75_cycle.")
c("C76","proved")
c("C77","proved","C77_out_of_step and C77_wrong_parameters are the parenthesised findings.")
c("C78","proved")
c("C79","proved","C79_readme assumes a backend that solves the consistent linear systems (one is given: C79_readme_case).")
c("C80","proved")
c("C81","proved")
c("C82","proved","Exact arithmetic; the backend is assumed to differentiate and to return the minimum-norm least-squares solution, as jax.jacfwd and np.linalg.lstsq do (BackendSpec.v). Such backends are constructed: bk83, and C82_ideal_backend gives one that is exact on every residual function (partial derivatives as limits, normal equations).")
c("C83","proved","Exact arithmetic; the backend is assumed to differentiate and to return the minimum-norm least-squares solution, as jax.jacfwd and np.linalg.lstsq do (BackendSpec.v). One such backend is constructed (bk83). C83_solves_systems discharges the assumption of C60 and C79.")
c("C84","proved","Exact arithmetic; the backend is assumed to differentiate and to return the minimum-norm least-squares solution, as jax.jacfwd and np.linalg.lstsq do (BackendSpec.v). Such backends are constructed: bk83, and C82_ideal_backend gives one that is exact on every residual function (partial derivatives as limits, normal equations).")
c("C85","proved","Exact arithmetic; the backend is assumed to differentiate and to return the minimum-norm least-squares solution, as jax.jacfwd and np.linalg.lstsq do (BackendSpec.v). One such backend is constructed (bk83). same_gradients: the gradient depends only on the function on vectors of the right length.")
c("C86","proved","Exact arithmetic, exact backends as in C83 (BackendSpec.v).")
c("C87","proved","Exact arithmetic, exact backends as in C82 (BackendSpec.v).")
c("C88","proved","Exact arithmetic, exact backends as in C82 (BackendSpec.v); C88_solve also assumes that gradients commute with translations (as derivatives do; bk83 satisfies it). Primitives whose arrays are empty or pairs, as the shipped ones have.")
c("C89","proved","Exact arithmetic; scipy's L-BFGS-B is represented by the sequence of intermediate results it reports, with the properties named in the statement (MinSpec.v). C89_optimiser_exists constructs one optimiser with all of them (steepest descent).")
c("C90","proved","Python's list indexing and slicing is modelled after CPython (list_subscript, PySlice_Unpack, PySlice_AdjustIndices) with unbounded integers.")
c("C91","proved","jax sorts dict keys when flattening and rebuilds the dict in that order; every node value is a leaf (an array, as primitives require). The claim that order survives is refuted (C91_order_refuted).")
c("C92","proved","Exact satisfaction (residual zero); that Newton reaches it from default primitives is C99. C92_case gives a layout and a tree that satisfy all hypotheses.")
c("C93","proved","The printing of values is arbitrary (any function to texts). Refuted without the condition on texts (C93_commas_refuted).")
c("C94","proved","Colour maps are arbitrary functions in C94_figure; the last two sentences are for maps that pick a table entry by the integer part of 256*x, as matplotlib's 256-colour maps do. What a failing primitive drew before its exception is not modelled.")
c("C95","proved","Exact satisfaction; that Newton reaches it is not claimed (label distances are not linear). The labels need the figure fixed at the origin (C64 refutes the claim elsewhere). C95_case (P_RoomCase.v) is a layout, drawn axes and a tree that satisfy all hypotheses.")
c("C96","proved","C96_vector_refuted: a Vector over a node with children does not return the vector (FIXME in constructions.py).")
c("C97","proved","Objects made while solving are modelled; under jax.jit the intermediate trees are only made when tracing.")
c("C98","proved","Exact satisfaction (residual zero). The three cases C98_grid_case, C98_colorbar_case and C98_two_axes_case are layouts with trees that satisfy all hypotheses; the origin point of the two-axes notebook (which only fixes the place) is left out there.")
c("C99","proved","Backend exact in real arithmetic (exists: C82_ideal_backend). That some upright satisfying tree exists is a hypothesis; it may be any tree, not the one found. For grids C99_grid adds what is drawn. C99_case: the figure of C92, from unit squares.")
c("C100","proved","Division by zero is an error in the model (numpy would give inf or nan), so the figure is assumed not degenerate. C100_workflow_case: the README's layout, all sizes; C100_case: an unsolved layout with twin axes.")
c("C101","proved","Backend exact in real arithmetic (exists: C82_ideal_backend). For 2W < k|W+1-k| < 3W only the recursion (C101_heights) is stated. Division by zero is an error in the model; numpy gives inf/nan there. C101_case: W = 6 with k = 2, 3, 8, 10.")
c("C102","proved","Backend exact in real arithmetic (exists: C82_ideal_backend). For H + k = 1 the first iteration gives width 0, where the length is not differentiable; nothing is stated. C102_case: 6 by 2 inches; height 1/2 and ratio 1/4 (mirrored).")
c("C103","proved","Real arithmetic: with floats exact only for powers of two. C103_case: the figure of C63_case, doubled.")
c("C104","proved","Real arithmetic. UnitSpec.v lists which parameters are lengths and which are ratios, for every shipped constraint. The factors differ between residuals (k, k^2, 1), so a tolerance does not simply scale. C104_case: the README layout in inches and in centimetres.")
c("C105","proved","Over any number type. Rejections hold for every layout and constraint whose class name has no slash; acceptance for shipped constraints with parameters of the documented form after histories of such (otherwise C52_atomic_refuted). C105_case shows every answer on one layout.")
c("C106","proved","Real arithmetic, exact backend (gradients and minimum-norm least squares). Only for satisfiable constraints: otherwise the minimised sum of squares weights residuals of different dimension differently in different units. C106_case: the box of C60 in inches and in centimetres.")
c("C107","proved","Real arithmetic; an angle is given by its cosine and sine. C107_angle_refuted: the Angle construction is a difference of two arctan2 values (constructions.py:1016-1023), so the lines in directions 135 and -135 degrees measure -270 degrees, and 90 degrees after half a turn. Box, Width, Height, margins, Horizontal, Vertical, X/Y distances and Fix refer to the axes and are not in the list. C107_case: a square at 0 and at about 53 degrees.")
c("C108","proved","C108_already_true and C108_further, for affine constraints; the linear backend is assumed to return the shortest least-squares solution (BackendSpec.exact_on). C108_case pins the width of a figure whose other constraints leave it free.")
c("C109","proved","C109_stable, C109_coordinates, C109_again, for affine constraints, whether they can be satisfied or not; the linear backend is assumed to return the shortest least-squares solution (BackendSpec.exact_on). C109_case: the figure of C108 started from two quadrilaterals; C109_again_case: started from its own solution. C109_on_the_way: starting anywhere on the line through start and solution, up to the solution, gives the same solution (C109_on_the_way_case: from halfway).")
c("C110","proved","C110_parts, for affine constraints that can be satisfied together; C110_compromise, the same when they contradict each other (the solution is then the best compromise): the constraints on the part are a sub-collection of all, up to order; in both, the linear backend is assumed to return the shortest least-squares solution (BackendSpec.exact_on). C110_case, C110_compromise_case: two quadrilaterals with constraints of their own, in the second case contradictory ones.")
c("C111","proved","Real arithmetic; a mirror line is given by the cosine and sine of twice its direction. C111_value, C111_side, C111_shipped, C111_satisfied, C111_layout; C111_axes: about an axis, Horizontal, Vertical and Box too. The constraint crPointToLineDistance asks for a signed distance and is therefore not in the list (C111_side says what happens to it). C111_case: a square and its mirror image about a slanted line; C111_axes_case: a square with Box, about the y axis.")
