# Formal model of mpl-layout in Rocq (Coq 8.16.1)

Source: `/repo/src/mpllayout/*.py` at the pinned commit, read as text. Nothing is executed; the only tie
between model and code is the file/line citation on each definition.

## Shape of the model

* **Exceptions are values**: `result A := Ok a | Err exn`. Code that mutates before it can raise is modelled
  with the new state *and* the result, so a partial update before an exception is visible.
* **Trees** (`containers.Node`): `node T A` = class tag, value, insertion-ordered association list of children
  (a Python dict). Keys are Coq `string`s and slash splitting is done on characters.
* **Objects**: the same container code, and the mutating part of `layout.py`, is modelled a second time with
  `Node` objects as references into heaps (`Heap.v`, `HeapLayout.v`), so that one node can be the child of several
  nodes or layouts. C75-C78 relate the two: a call on objects does what the call on trees does, to every holder of
  the changed object and to nothing else. Theorems about histories of trees transfer through C78.
* **Object identity of parameter vectors** (`id(prim.value)`) is explicit: a primitive value is an identity
  (`nat`) plus its data. Constructors take the next free identity and return the next one.
* **Constructions**: a node whose class tag carries the `assem` function and whose value carries
  `child_prim_keys`, `child_params`, and the signature, just as in `constructions.py`.
* **Numbers**: everything is generic in a type `F` with operations (`Num F`). Structural theorems hold for
  every `Num F`; geometric theorems are at `F = R` (Coq's axiomatic reals). A rational instance makes the
  model executable (`vm_compute`) for concrete cases. Division by zero, square roots of negatives, `0**-1` are
  `Err NonFinite` (the code yields nan/inf or ZeroDivisionError there), never a default number.
* **numpy/jax values** (`pyval`): Python int, float, bool, None, list, 0-d array, 1-d array, matplotlib axis,
  dict. `+`, `*`, `**` follow Python/numpy rules incl. broadcasting of sizes 0/1 and list repetition.
* **External calls** are parameters (functions) of the model: `np.linalg.lstsq`+`jax.jacfwd` (Newton step),
  `scipy.optimize.minimize` (sequence of intermediate results), matplotlib (measured bounding boxes; the
  sequence of setter calls is the observable output).
* **Loops and recursion** that Coq cannot see terminating run on fuel that is computed from the input, with
  `OutOfFuel` as an explicit outcome; the theorems show that it never occurs on inputs they speak of
  (for a cyclic structure of nodes, where Python raises RecursionError, it does: C75_cycle).

## Files

| Model | Code |
|---|---|
| `Base.v`, `Num.v` | Python/numpy vocabulary: exceptions, dicts, keys, slices, run-time values and operators |
| `Node.v` | `containers.py`: `Node`, `map`, `accumulate`, `iter_flat`, `flatten`, `unflatten`, `ItemCounter` |
| `Index.v` | `containers.py`: integer and slice subscripts |
| `Repr.v` | `containers.py`: `__repr__`, `__str__` |
| `Pytree.v` | the jax pytree registration of nodes and primitives |
| `Heap.v` | `containers.py` with object identity |
| `Prim.v` | `primitives.py`: `Primitive`, constructors, unique values and their packing |
| `Cons.v` | `constructions.py`: nodes, evaluation, validation, transforms, operators |
| `Geom.v` | `constructions.py`: the concrete constructions |
| `Constr.v` | `constraints.py` |
| `Layout.v`, `HeapLayout.v` | `layout.py`, on trees and on objects |
| `HeapSolve.v` | `solver.py` on objects |
| `Solver.v`, `Backend.v` | `solver.py`, the numpy/jax calls in it |
| `MplUtils.v` | `matplotlibutils.py` |
| `Ui.v`, `UiFig.v` | `ui.py`: items drawn; colours and figure |
| `Inst.v` | number instances R and Q |

Specification vocabulary (independent of the model's helpers): `Spec.v`, `ConsSpec.v`, `GeomSpec.v`, `LayoutSpec.v`,
`ReadySpec.v`, `ShippedSpec.v`, `SizeSpec.v`, `SolverSpec.v`, `BackendSpec.v`, `StationSpec.v`, `MoveSpec.v`, `MinSpec.v`, `IndexSpec.v`, `PytreeSpec.v`, `GridEndSpec.v`, `ImpliedSpec.v`, `OneStepSpec.v`, `DrawSpec.v`, `AspectSpec.v`, `AspectHSpec.v`, `RoomSpec.v`, `ReprSpec.v`, `UiFigSpec.v`, `LsqSpec.v`, `ExprSpec.v`, `MplSpec.v`, `UiSpec.v`, `EndSpec.v`, `HeapSpec.v`, `HeapLayoutSpec.v`.
Property theorems, each followed by concrete cases that meet its hypotheses: `P_*.v`. Everything else is lemmas.

## Trusted base

* Coq 8.16.1's kernel (including `vm_compute`), and the reading of the Python source.
* The axioms in the last column of the table below, as listed by `Print Assumptions` under each theorem:
  *none*, or those of the standard library's reals (**R** = `ClassicalDedekindReals.sig_forall_dec`,
  `ClassicalDedekindReals.sig_not_dec`, `FunctionalExtensionality.functional_extensionality_dep`) and
  **C** = `Classical_Prop.classic` (through the standard library's trigonometry). No axioms of our own, no other
  library's. Coquelicot's `Derive` is used in `P_Ideal.v` and `P_Min.v` to construct a backend and an optimiser
  that meet the assumptions of C82-C89 (it adds no axioms).
* Not modelled: floating-point rounding, jit compilation/tracing, jax's automatic differentiation, scipy's and LAPACK's algorithms, matplotlib rendering, performance, warnings, user-defined
  subclasses of primitives, the example script and the tests.

## How the properties are modelled and proved

| Ids | Modelled by | Proof |
|----|-------------|------------------|
| C01-C05 | `get_child`, `add_child`, `setitem`, `contains` on strings, branch by branch (fuel = key length) | equal to walking the components of the key; induction on components; frame lemma for all other paths |
| C06-C10 | `iter_flat`, `flatten`, `unflatten`, `map`, `accumulate`, `node_height` | nested-tree induction; key injectivity for slash-free keys |
| C11 | `ItemCounter` as state, while loop on fuel | pigeonhole: number of keys + 1 rounds always suffice |
| C12-C15, C72, C74 | class constructors with identity supply | list induction on points; finite flag analysis |
| C16-C19, C30 | `filter_unique_values_from_prim`, `build_prim_from_unique_values`, cumulative-sum slicing, `chunk` | loop invariant over the flat list; list lemmas |
| C20 | `call` = validate, three flattened trees, zip, concat | refinement to a recursive denotation (`denote`) |
| C21 | sizes of all `assem` outputs | per class, for arrays and grids of every size |
| C22-C29 | the construction transforms on zipped preorder lists | induction over the tree through `denote` |
| C31-C33 | validation, constructor checks, operator overloads | case analysis |
| C34-C43, C48-C50, C69 | concrete constructions and constraints at R | evaluation through `denote`, then real arithmetic |
| C44-C47 | arrays/grids for every N, r, c | map law + index arithmetic |
| C51-C56, C70, C71 | `Layout` as a state machine | invariants over call histories, failing calls included |
| C57-C62 | Newton loop with oracle step; minimize callback as fold | induction on iterations; directional derivatives and affine residuals for C60 |
| C63-C66 | `update_subplots` as a sequence of setter calls | evaluation of the sequence |
| C67, C68, C73 | `plot_prims` as the list of drawn items | tree induction; trigonometry |
| C79 | the three parts together: history, solver, setter calls | residual of the layout split into its constraints (C53), their values on quadrilaterals (C41-C43), setter calls (C63), one Newton step (C60) |
| C80, C81 | all expressions over the shipped constructions (inductive `expressible`) | closure of the two properties (invariance under forgetting array identities; same length for same sizes) under every transform |
| C82-C85 | `Backend.v`: Jacobian by rows, `lstsq` with minimum norm, Newton loop on top | least-squares theory on lists (`Lsq.v`: existence by projection, uniqueness), affine residual = linearisation, zero columns of bystanders, permuted rows |
| C86 | as C83 | both solves end at the point of the common solution set closest to the start, which is unique (C83); stating a set of constraints differently leaves the solution set alone (C79_every_constraint) |
| C87 | as C82; slopes of `assem_objective` as derivatives along lines (`StationSpec.v`) | normal equations of the least-squares step: the slope along the step d is -2 times the squared length of J d |
| C88 | displaced trees and call histories (`MoveSpec.v`); expressions over the constructions that only compare positions | induction over expressions: every leaf takes differences; simulation of the Newton loop; the least-norm step is orthogonal to the common translations, which the Jacobian maps to 0 |
| C89 | optimiser = sequence of intermediate results (`MinSpec.v`) | callback loop commutes with a map on vectors; permuted residual has the same sum of squares; directions of constancy |
| C90 | `Index.v`: `__getitem__` for all key types, CPython's slice arithmetic | arithmetic progressions = filtered positions (strictly sorted lists with the same members) |
| C91 | `Pytree.v`: the registered flatten/unflatten functions and jax's treatment of dicts | induction on trees; a sorted list is determined by its members |
| C92 | C79's workflow with Grid (C46), or RectilinearGrid (C45), RelativeLength and OuterMargin | every constraint holds (C79), so rows and columns are consecutive intervals of given sizes and gaps; induction on the column/row |
| C93 | `Repr.v` with arbitrary printing of classes and values | a clean text ends at the first special character, so a text can be read back: induction on trees with a continuation |
| C94 | `UiFig.v`: the calls of `figure_prims`, items with their colour | induction over the loop of `plot_prims`; integer division for colour tables |
| C95 | update_layout_constraints on layout histories, then C79's workflow with axis boxes | the parameter tree after the update is the one of the same history with measured parameters (C73), then C69, C48, C43 give the boxes, C63-C65 the drawing, C40/C49 the labels |
| C96 | the constructions as called by users: call of every leaf and compound construction of constructions.py | evaluate the recorded assembly on primitives with given coordinates, compare with vector algebra in GeomSpec.v |
| C97 | solver.py on objects (`HeapSolve.v`): the layout's trees are references into heaps, every tree built while solving is allocated | refinement of solve on trees, call by call of the Newton loop; freshness of `unflatten`; framing of later changes |
| C98 | C92's workflow with the figure's height or width replaced by an aspect ratio; the example notebooks' colour bar and two axes | the first cell's size is that of C92's unit; linear arithmetic from C35/C36/C38/C42/C43 |
| C99 | solve_newton on layouts of straight boxes; Length, RelativeLength, Collinear and the grids at unit squares | each residual has an affine tangent map at the start (the derivative of sqrt at 1 is exact on upright boxes) whose zeros are zeros of the residual; the least-squares step lands on the closest one; a grid solution upright near the witness has the sizes of C92, hence is upright |
| C100 | subplots/update_subplots on every tree of the layout's structure; Axes constructor | each lookup succeeds because keys, classes and vector sizes are those of the built layout; with C79's solver output and figure theorem |
| C101 | Box + Width + AspectRatio on a default Quadrilateral, whole solve_newton loop, subplots | residual of 8 numbers computed; linearisation of a quotient of lengths; exact least-squares step on boxes; induction over the loop |
| C102 | as C101 with Height | as C101; the step from a box of the right height is exact |
| C103 | MplUtils.v; a map multiplying every coordinate (ScaleSpec.v) | every step of the drawing commutes with it; the tick sides through an invariant of construction calls (ScaleProofs.v) |
| C104 | Constr.v, Geom.v, Layout.v; a table of the parameters that are lengths (UnitSpec.v) | each leaf residual is homogeneous (ScaleCons.v), induction over constraint trees (ScaleComp.v, UnitProofs.v) and over histories (UnitLayout.v) |
| C105 | Layout.v, Node.v (ItemCounter) | case analysis of the call on a lockstep layout; the generated key is fresh by the counting argument of C11 (P_Outcome.v) |
| C106 | Solver.v, Backend.v, Layout.v, MplUtils.v, as C83 and C104 | the nearest solution of the scaled system is the scaled nearest solution: distances scale by k^2 and the minimiser of C83 is unique (UnitSolve.v, P_UnitSolve.v); drawing by C103 |
| C107 | Geom.v, Constr.v, Cons.v, Layout.v; turning in TurnSpec.v | each leaf is built from inner and cross products of differences, preserved by rotations; induction over expressions as in C88 (TurnProofs.v); weaker zero-iff-zero relation for the coincidences |
| C108 | two layouts of affine constraints on the same primitives, one with more constraints | least-squares and nearest-solution characterisation of C83 for both layouts, C79's account of the residual by constraints, uniqueness of the nearest solution (P_Pinned) |
| C109 | two layouts of the same affine constraints, with primitives that differ in their numbers | the least-squares solutions form a convex set (residuals are affine); a solution is the nearest of them to the start (C83), hence the obtuse-angle inequality at both solutions, whose sum gives the bound (P_Stable) |
| C110 | a layout and the layout with only the constraints on some of its arrays | exchanging the numbers of the part between the two solutions gives trees satisfying either layout (constraints depend on the content of the primitives they are handed, C80); the squared distances of the exchanged trees add up to those of the solutions, so the nearest-solution property (C83) forces equality (P_Parts) |
| C111 | mirroring a tree about a line through the origin (MirrorSpec) | as for C107; the cross products of Parallel and Collinear and the normal distance change their sign, so the former vanish together and the latter is negated (MirrorProofs, P_Mirror) |
| C75-C78 | containers and layouts on objects | simulation between objects and trees |

All properties could be expressed. Properties whose natural statement turned out false of the code are stated as
they hold (see `properties.jsonl`), with the false statement refuted by a concrete case:

## Findings (proved counterexamples)

* C04, C05: `node['a/'] = x`, `'a/' in node`, `'x/y' in node` with `x` missing (KeyError instead of False).
* C07: child keys containing '/' make flattened keys ambiguous.
* C13, C15: surplus points/prims are silently dropped.
* C21: `CoincidentLines` declares size 2 and returns 4.
* C23: `Width() + Width()` is not the sum of values (children's primitive keys collide).
* C27: `construction.constraint()` of depth two silently loses residuals; array targets of compound constructions fail.
* C29: partial application freezing nothing raises when called.
* C32: the arity check of `ConstructionNode` never fires. C33: sums with numbers and `Scalar * number` raise.
* C37: `AngleBetweenLines` returns values outside (-pi, pi].
* C47: `idx_1d` is wrong in three dimensions.
* C50: an unusual tick position raises and leaves the axis label invisible.
* C51, C52, C55: a Grid with too few margins, or numbers instead of arrays, leaves the layout's trees out of step.
* C59: the error reported by 'newton' is that of the iterate before the returned one. C62: 'minimize' reports squares.
* C64: labels are not measured from the figure's corner. C68: label rotation of lines pointing down is mirrored.
* C96: a `Vector` over a node with children returns its array twice.
* C75: a node can be added below itself. C77: adding a constraint to an updated layout also adds it, without
  parameters, to the original; later additions then pair constraints with the wrong parameters.
* C101: a figure of width 6 with AspectRatio 3 breaks Newton's method down (division by zero in the third iteration), with
  AspectRatio 10 it diverges, with AspectRatio 8 it finds a figure of height -0.75; boxes 6 by 2, 0.6, 0.75 satisfy the constraints. C102: height 1/2 and AspectRatio 1/4 give width -1/8.

## Testing the theorems

`seeded/LOG.jsonl`: each line is one edit of the model (a realistic bug), the claim it breaks and the theorems whose
proofs then failed. Seven edits that break a claim went unnoticed at first (m016, m027, q008, r018, r021, r034, r059) and led to new or
restated theorems; the reruns (m016r, m027r, r001, s001-s004) are noticed.

## Properties, theorems, axioms

| Id | Property | Status | Theorems (axioms) |
|---|---|---|---|
| C01 | Slash-separated lookup walks the tree | proved | `C01_lookup` (none), `C01_every_key_has_components` (none) |
| C02 | add_child has exactly its intended effect | proved | `C02_add_child_effect` (none) |
| C03 | add_child refuses overwriting and missing parents without side effect | proved | `C03_add_child_refuses` (none) |
| C04 | Item assignment replaces exactly the addressed node | proved | `C04_setitem` (none), `C04_setitem_refuted` (none) |
| C05 | Membership agrees with lookup | proved | `C05_membership` (none), `C05_membership_refuted` (none) |
| C06 | flatten/unflatten is lossless | proved | `C06_unflatten_flatten` (none) |
| C07 | Depth-first enumeration gives every node one distinct, resolvable key | proved | `C07_order` (none), `C07_keys` (none), `C07_keys_refuted` (none) |
| C08 | map and copy preserve shape | proved | `C08_map` (none), `C08_copy` (none) |
| C09 | accumulate totals subtrees | proved | `C09_accumulate` (none), `C09_any_operation` (none), `C09_initial_value` (none) |
| C10 | node_height is the longest downward path | proved | `C10_node_height` (none) |
| C11 | Automatic constraint keys always terminate and are fresh | proved | `C11_fresh_key` (none), `C11_fresh_key_three_trees` (none), `C11_successive_keys_differ` (none), `C11_raw_keys_clash` (none) |
| C12 | Polygons are closed loops | proved | `C12_polygon_is_a_loop` (none) |
| C13 | Constructors enforce primitive signatures | proved | `C13_class_tests` (none), `C13_returned_primitives_conform` (none), `C13_base_constructor` (none), `C13_arguments` (none), `C13_line_surplus_ignored` (none) |
| C14 | A quadrilateral takes exactly four vertices | proved | `C14_quad_takes_four` (none) |
| C15 | Axes children follow the axis flags | proved | `C15_axes_default` (none), `C15_axes_given` (none), `C15_axes_given_all` (none), `C15_surplus_ignored` (none) |
| C16 | Unique-value extraction is faithful | proved | `C16_unique_values` (none) |
| C17 | Rebuilding a primitive tree from unique values | proved | `C17_rebuild_identity` (none), `C17_rebuild_new_values` (none) |
| C18 | Degrees of freedom of a polygon | proved | `C18_polygon_unknowns` (none) |
| C19 | Packing and unpacking the global parameter vector | proved | `C19_pack_unpack` (none) |
| C20 | Calling a construction evaluates its whole tree | proved | `C20_call_concatenates_outputs` (none), `C20_call_returns_documented_value` (none), `C20_outputs_of_a_tree` (none), `C20_selection` (none) |
| C21 | Declared output sizes are the actual sizes | proved | `C21_declared_sizes` (none), `C21_call_size` (none), `C21_declared_sizes_refuted` (none) |
| C22 | Sums exist exactly for matching constructions | proved | `C22_sum_exists_iff` (none) |
| C23 | Sums add node by node | proved | `C23_sum_node_by_node` (R+C), `C23_sum_adds_values` (R+C), `C23_sum_adds_values_refuted` (none) |
| C24 | Scalar multiples and negation | proved | `C24_scalar_multiple` (R+C), `C24_negation` (R+C), `C24_scalar_construction` (R+C) |
| C25 | Scalar division | proved | `C25_scalar_division` (R+C) |
| C26 | Scalar powers | proved | `C26_integer_power` (R+C), `C26_real_power` (R+C), `C26_scalar_construction_power` (R+C) |
| C27 | A constraint is construction minus target | proved | `C27_number_target` (R+C), `C27_array_target` (R+C), `C27_array_target_compound` (R+C), `C27_shipped_depth` (none), `C27_depth_two_refuted` (none), `C27_array_target_refuted` (none), `C27_target_lengths` (R+C) |
| C28 | Mapping a construction over primitives | proved | `C28_map_evaluates_each` (none) |
| C29 | Partial application fixes the trailing parameters | proved | `C29_partial_application` (none), `C29_nothing_frozen` (none), `C29_nothing_frozen_refuted` (none) |
| C30 | Chunking partitions | proved | `C30_chunk` (none) |
| C31 | Inputs are validated before evaluation | proved | `C31_invalid_arguments_raise` (none), `C31_valid_arguments_pass` (none) |
| C32 | What construction constructors reject | proved | `C32_constructor` (none), `C32_arity_refuted` (none) |
| C33 | Which operators accept plain numbers | proved | `C33_adding_numbers_refuted` (none), `C33_products` (none), `C33_scalar_times_number_refuted` (none) |
| C34 | Point constraints | proved | `C34_fix` (R+C), `C34_coincident` (R+C), `C34_directed_distance` (R+C), `C34_x_distance` (R+C), `C34_y_distance` (R+C) |
| C35 | Single-line constraints | proved | `C35_length` (R+C), `C35_directed_length` (R+C), `C35_x_length` (R+C), `C35_y_length` (R+C), `C35_horizontal` (R+C), `C35_vertical` (R+C) |
| C36 | Two-line constraints | proved | `C36_relative_length` (R+C), `C36_midpoint_x` (R+C), `C36_midpoint_y` (R+C), `C36_orthogonal` (R+C), `C36_parallel` (R+C) |
| C37 | Angle between lines | proved | `C37_angle_modulo_full_turn` (R+C), `C37_angle_constraint_sound` (R+C), `C37_angle_range_refuted` (R+C) |
| C38 | Collinear | proved | `C38_collinear` (R+C) |
| C39 | CoincidentLines | proved | `C39_coincident_lines` (R+C) |
| C40 | Point/line distances | proved | `C40_point_on_line` (R+C), `C40_point_to_line` (R+C), `C40_relative_point_on_line` (R+C), `C40_reversing` (R) |
| C41 | Box | proved | `C41_box` (R+C) |
| C42 | Width, Height, AspectRatio | proved | `C42_width` (R+C), `C42_height` (R+C), `C42_box` (R+C), `C42_aspect_ratio` (R+C) |
| C43 | Margins | proved | `C43_inner_margin` (R+C), `C43_outer_margin` (R+C), `C43_other_sides_raise` (R+C) |
| C44 | OuterMarginArray | proved | `C44_outer_margin_array` (R+C) |
| C45 | Rectilinear grids align | proved | `C45_rectilinear_grid` (R+C) |
| C46 | Grid dimensions | proved | `C46_grid` (R+C) |
| C47 | Multi-index flattening | proved | `C47_row_major` (none), `C47_bijective` (none), `C47_three_dimensions_refuted` (none) |
| C48 | Axis placement | proved | `C48_x_axis` (R+C), `C48_y_axis` (R+C), `C48_on_boxes` (none), `C48_opposite_side` (none), `C48_opposite_side_domain` (none) |
| C49 | Axis label placement | proved | `C49_x_label` (R+C), `C49_y_label` (R+C) |
| C50 | Measuring an axis leaves it unchanged | proved | `C50_visibility_restored` (R+C), `C50_other_positions` (R+C), `C50_visibility_refuted` (R+C) |
| C51 | Constraints, primitive keys and parameters stay in lockstep | proved | `C51_lockstep` (none), `C51_lockstep_shipped` (none), `C51_lockstep_refuted` (none) |
| C52 | A rejected add_constraint leaves the layout unchanged | proved | `C52_atomic` (none), `C52_atomic_shipped` (none), `C52_validation_first` (none), `C52_atomic_refuted` (none) |
| C53 | The layout residual is the concatenation of its constraints' residuals | proved | `C53_residual` (none), `C53_residual_shipped` (none), `C53_no_constraints` (none) |
| C54 | Updating matplotlib-dependent parameters touches nothing else | proved | `C54_update` (none) |
| C55 | Wrong-length nested parameters | proved | `C55_short_sizes` (none), `C55_surplus_ignored` (none), `C55_lengths_refuted` (none) |
| C56 | add_prim(s) store primitives under their keys | proved | `C56_add_prim` (none), `C56_add_prims` (none) |
| C57 | The Newton solver stops and reports one error per iteration | proved | `C57_newton_trace` (none), `C57_newton_returns` (none) |
| C58 | The solved tree has the layout's structure | proved | `C58_structure` (none), `C58_no_iterations` (none) |
| C59 | What the reported Newton error means | proved | `C59_reported_error` (R+C), `C59_converged_refuted` (R+C) |
| C60 | Affine layouts are solved in one Newton step | proved | `C60_affine_layouts` (R+C) |
| C61 | Solver method dispatch | proved | `C61_dispatch` (none) |
| C62 | What the minimize history means | proved | `C62_minimize_history_refuted` (R+C), `C62_minimize_history` (R+C) |
| C63 | Figure and axes geometry transfer | proved | `C63_geometry` (R+C), `C63_succeeds` (R+C), `C63_subplots` (R+C) |
| C64 | Axis labels are placed at their solved points | proved | `C64_label_position_refuted` (R+C), `C64_label_position` (R+C) |
| C65 | Tick side follows the solved axis | proved | `C65_nearest_side` (R+C), `C65_tick_side` (R+C), `C65_ticks_follow_axis` (R+C), `C65_position_constraint` (R+C) |
| C66 | subplots creates one matplotlib axes per axes key | proved | `C66_axes_by_name` (R+C), `C66_axes_given` (R+C) |
| C67 | Primitive plots have valid opacity | proved | `C67_opacity` (R+C), `C67_fades_inwards` (R+C) |
| C68 | Label rotation | proved | `C68_rotation_refuted` (R+C), `C68_rotation` (R+C) |
| C69 | Axis thickness constraint | proved | `C69_x_axis_thickness` (R+C), `C69_y_axis_thickness` (R+C) |
| C70 | Shipped constraints hand each part what it declares | proved | `C70_parts_are_served` (none), `C70_constructed_primitives_are_whole` (none) |
| C71 | Layout trees stay well-formed | proved | `C71_trees_well_formed` (none), `C71_iteration_keys_resolve` (none), `C71_shipped_constraints` (none), `C71_arrays_consistent` (none) |
| C72 | Constructors allocate fresh arrays | proved | `C72_constructors_allocate` (none), `C72_defaults_share_nothing` (none) |
| C73 | Plots show every primitive once | proved | `C73_each_primitive_once` (R+C), `C73_point` (R+C), `C73_line` (R+C), `C73_zero_line` (R+C), `C73_quadrilateral` (R+C), `C73_polygon` (R+C), `C73_drawing` (R+C) |
| C74 | Default and given arguments of primitive constructors | proved | `C74_point` (R+C), `C74_line` (R+C), `C74_quadrilateral` (R+C), `C74_polygon` (R+C), `C74_polygon_zero` (none), `C74_axes` (R+C) |
| C75 | Changes reach exactly the holders of the changed object | proved | `C75_lookup` (none), `C75_one_object_changes` (none), `C75_every_holder` (none), `C75_others_untouched` (none), `C75_unshared` (none), `C75_cycle` (none), `C75_assignment` (none) |
| C76 | copy() is independent of the original | proved | `C76_copy` (none), `C76_independent` (none) |
| C77 | What an updated layout shares with the original | proved | `C77_update` (none), `C77_later_calls` (none), `C77_out_of_step` (none), `C77_wrong_parameters` (none) |
| C78 | Layout calls use the objects handed in and modify nothing else | proved | `C78_empty` (none), `C78_refinement` (none), `C78_flat` (none), `C78_lockstep` (none), `C78_nested_key` (none) |
| C79 | Build, solve, draw | proved | `C79_every_constraint` (R+C), `C79_figure` (R+C), `C79_figure_exact` (R+C), `C79_solver_output` (R+C), `C79_quads_qualify` (R+C), `C79_readme` (R+C) |
| C80 | Values depend on the content of the primitives | proved | `C80_value` (none), `C80_residual` (none), `C80_shipped` (none) |
| C81 | The number of equations does not depend on the numbers | proved | `C81_value_size` (none), `C81_residual_size` (none) |
| C82 | A satisfied layout is left alone | proved | `C82_left_alone` (R+C), `C82_ideal_backend` (R) |
| C83 | Over- and underdetermined affine layouts | proved | `C83_least_squares` (R+C), `C83_solves_systems` (R+C) |
| C84 | Primitives no constraint refers to stay put | proved | `C84_bystanders` (R+C) |
| C85 | The order of constraints does not matter | proved | `C85_order` (R+C) |
| C86 | Solving depends on the solutions of the constraints only | proved | `C86_same_solutions` (R+C), `C86_repeated` (R+C) |
| C87 | Newton steps go downhill and stop only at stationary points | proved | `C87_stationary` (R+C), `C87_descent` (R+C), `C87_unmoved` (R+C) |
| C88 | Constraints other than Fix do not depend on where the figure is | proved | `C88_value` (R+C), `C88_residual` (R+C), `C88_shipped` (R+C), `C88_history` (R), `C88_solve` (R+C), `C88_centroid` (R+C), `C88_centroid_affine` (R+C) |
| C89 | The 'minimize' method: order, position, descent, bystanders, centroid | proved | `C89_order` (R+C), `C89_moved` (R+C), `C89_never_worse` (R+C), `C89_bystanders` (R+C), `C89_centroid` (R+C), `C89_optimiser_exists` (R+C) |
| C90 | Children by position and by slice | proved | `C90_int` (none), `C90_slice` (none), `C90_range` (none), `C90_all` (none), `C90_parts` (none), `C90_keys` (none), `C90_types` (none), `C90_added` (none) |
| C91 | Nodes are jax pytrees | proved | `C91_map` (none), `C91_leaves` (none), `C91_unflatten` (none), `C91_roundtrip` (none), `C91_sorted` (none), `C91_twice` (none), `C91_structure` (none), `C91_order_refuted` (none) |
| C92 | A figure with a grid of axes | proved | `C92_grid` (R+C) |
| C93 | What the text of a node tells | proved | `C93_same_text` (none), `C93_equal` (none), `C93_copy` (none), `C93_commas_refuted` (none), `C93_sharing_refuted` (none) |
| C94 | Figures of primitives and their colours | proved | `C94_figure` (R+C), `C94_shades` (R), `C94_different` (R), `C94_colors_refuted` (R) |
| C95 | Making room for tick labels | proved | `C95_residual` (R+C), `C95_measured` (R+C), `C95_every_constraint` (R+C), `C95_succeeds` (R+C), `C95_figure` (R+C), `C95_ticks` (R+C), `C95_labels` (R+C) |
| C96 | What constructions measure | proved | `C96_points` (R+C), `C96_lines` (R+C), `C96_unit` (R+C), `C96_midpoints` (R+C), `C96_quad` (R+C), `C96_margins` (R+C), `C96_direction` (R+C), `C96_constant` (R+C), `C96_vector` (R+C), `C96_vector_refuted` (R+C) |
| C97 | solve touches nothing and returns a tree of its own | proved | `C97_solve` (none), `C97_layouts_kept` (none), `C97_independent` (none), `C97_again` (none), `C97_later_calls` (none) |
| C98 | Sizes that follow from others | proved | `C98_grid_height` (R+C), `C98_grid_width` (R+C), `C98_colorbar` (R+C), `C98_two_axes` (R+C) |
| C99 | One Newton iteration solves straight layouts started from default primitives | proved | `C99_one_step` (R+C), `C99_grid` (R+C) |
| C100 | Drawing a layout succeeds | proved | `C100_axes_qualify` (R+C), `C100_draws` (R+C), `C100_draws_named` (R+C), `C100_solved` (R+C), `C100_workflow` (R+C) |
| C101 | Asking for a width and an aspect ratio: what Newton's method does from the default square | proved | `C101_heights` (R+C), `C101_converges` (R+C), `C101_always_solved_refuted` (R+C), `C101_upright_refuted` (R+C), `C101_always_finite_refuted` (R+C) |
| C102 | A height and an aspect ratio are found exactly in two iterations | proved | `C102_two_iterations` (R+C), `C102_as_asked` (R+C), `C102_positive_refuted` (R+C) |
| C103 | The drawing scales with the unit of length | proved | `C103_update_subplots` (R+C), `C103_subplots` (R+C), `C103_figure` (R+C) |
| C104 | Constraints do not depend on the unit of length | proved | `C104_value` (R+C), `C104_satisfied` (R+C), `C104_layout` (R+C) |
| C105 | What add_constraint answers | proved | `C105_missing_primitive` (none), `C105_wrong_primitives` (none), `C105_wrong_parameters` (none), `C105_key_refused` (none), `C105_accepted` (none), `C105_generated` (none) |
| C106 | Solving in another unit of length gives the same figure | proved | `C106_solve` (R+C), `C106_figure` (R+C) |
| C107 | Constraints that do not mention the axes do not depend on how the figure is turned | proved | `C107_value` (R+C), `C107_shipped` (R+C), `C107_satisfied` (R+C), `C107_layout` (R+C), `C107_angle_refuted` (R+C) |
| C108 | Stating what already holds changes nothing; stating more never brings the solution nearer | proved | `C108_already_true` (R+C), `C108_further` (R+C) |
| C109 | The solved figure depends on the starting figure without jumps; solving again changes nothing | proved | `C109_stable` (R+C), `C109_coordinates` (R+C), `C109_again` (R+C), `C109_on_the_way` (R+C) |
| C110 | A part of the figure that no constraint ties to the rest is solved on its own | proved | `C110_parts` (R+C), `C110_compromise` (R+C) |
| C111 | Constraints that know neither the axes nor left and right hold for the mirror image too | proved | `C111_value` (R+C), `C111_side` (R+C), `C111_shipped` (R+C), `C111_satisfied` (R+C), `C111_layout` (R+C), `C111_axes` (R+C) |
