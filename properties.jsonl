{"id": "C01", "title": "Slash-separated lookup walks the tree", "statement": "`node['a/b/c']` returns exactly `node['a']['b']['c']` (the node reached by following one child key per '/'-separated component) and raises KeyError carrying the full key, for exactly those keys for which some component on the way is missing.", "quantifier": "every tree, every key string (any number of components, including empty components)", "why_tests_cant": "trees and keys are unbounded; tests only look at a handful of two- or three-level keys", "anchors": ["src/mpllayout/containers.py:Node.get_child", "src/mpllayout/containers.py:Node.__getitem__"]}
{"id": "C02", "title": "add_child has exactly its intended effect", "statement": "After a successful `node.add_child(key, child)`, `node[key]` is `child`, the new key is the last child of its parent, and every lookup of a key that does not run through `key` returns what it returned before (same nodes up to the insertion itself, same sibling order).", "quantifier": "every tree, every key, every child", "why_tests_cant": "frame conditions range over all other keys of an arbitrary tree", "anchors": ["src/mpllayout/containers.py:Node.add_child"]}
{"id": "C03", "title": "add_child refuses overwriting and missing parents without side effect", "statement": "`add_child(key, child)` raises KeyError exactly when `key` already resolves to a node or the parent of `key` does not resolve, and then the tree is unchanged.", "quantifier": "every tree, every key", "why_tests_cant": "needs all trees/keys and the absence of any effect", "anchors": ["src/mpllayout/containers.py:Node.add_child"]}
{"id": "C04", "title": "Item assignment replaces exactly the addressed node", "statement": "For every key that does not end in '/' and is not of the form '/k': `node[key] = new` raises KeyError and changes nothing if `key` does not resolve; otherwise afterwards `node[key]` is `new`, sibling order is unchanged and all unrelated lookups are unchanged. (For the two excluded forms the claim is false: 'd/' stores a child with an empty key, '/d' replaces the top-level d.)", "quantifier": "every tree, every key without those two forms, every replacement", "why_tests_cant": "frame conditions over arbitrary trees; corner-case keys (leading/trailing '/')", "anchors": ["src/mpllayout/containers.py:Node.__setitem__"]}
{"id": "C05", "title": "Membership agrees with lookup", "statement": "For every key without a trailing '/': if the parent of the addressed place exists, `key in node` is True exactly when `node[key]` succeeds and False otherwise; if a parent is missing it raises KeyError. (For 'a/' it answers True although lookup fails.)", "quantifier": "every tree and every key string without trailing slash", "why_tests_cant": "equivalence over all keys; corner cases such as missing parents or trailing '/'", "anchors": ["src/mpllayout/containers.py:Node.__contains__", "src/mpllayout/containers.py:Node.get_child"]}
{"id": "C06", "title": "flatten/unflatten is lossless", "statement": "`unflatten(flatten(k, node))` returns a node equal to `node` (types, values, child keys, child order) and an empty leftover; if further structures follow, they are returned untouched.", "quantifier": "every tree, every root key, every trailing list of structures", "why_tests_cant": "arbitrary depth/branching", "anchors": ["src/mpllayout/containers.py:flatten", "src/mpllayout/containers.py:unflatten", "src/mpllayout/containers.py:iter_flat"]}
{"id": "C07", "title": "Depth-first enumeration gives every node one distinct, resolvable key", "statement": "`iter_flat(root_key, node)` lists every node of the tree exactly once, parents before children and children in order. If no child key contains '/', the listed keys are pairwise distinct, stripping the root prefix from a listed key gives a key that looks up exactly the listed node, and every key that resolves is listed. (With '/' inside child keys the listed keys can clash.)", "quantifier": "every tree, every root key", "why_tests_cant": "uniqueness and resolvability over arbitrary trees and key alphabets", "anchors": ["src/mpllayout/containers.py:iter_flat"]}
{"id": "C08", "title": "map and copy preserve shape", "statement": "`map(f, node)` has the same child keys in the same order at every level and the value at each path is `f` of the value at that path; `copy()` has equal values everywhere; every node of the result is a plain Node, whatever the classes were before.", "quantifier": "every tree, every function", "why_tests_cant": "arbitrary trees and functions", "anchors": ["src/mpllayout/containers.py:map", "src/mpllayout/containers.py:Node.copy"]}
{"id": "C09", "title": "accumulate totals subtrees", "statement": "`accumulate(fun, node, initial)` returns a tree of the same shape in which every node's value is `initial` combined with all values of the corresponding subtree: with addition and initial 0 their sum; for any associative operation the combination in listing order; the initial value enters once per node.", "quantifier": "every tree, every associative operation, every initial value", "why_tests_cant": "arbitrary trees", "anchors": ["src/mpllayout/containers.py:accumulate"]}
{"id": "C10", "title": "node_height is the longest downward path", "statement": "`node.node_height()` is the length of a longest chain of child keys that resolves from the node; 0 exactly for childless nodes.", "quantifier": "every tree", "why_tests_cant": "arbitrary trees", "anchors": ["src/mpllayout/containers.py:Node.node_height"]}
{"id": "C11", "title": "Automatic constraint keys always terminate and are fresh", "statement": "Whatever keys already exist in the given trees and whatever the counter's history, generating an automatic key terminates and returns a key that is in none of the trees; two automatic keys issued one after the other for the same collection never clash once added.", "quantifier": "every counter state, every finite collection of trees, every category name without '/'", "why_tests_cant": "termination of an unbounded while loop and freshness for arbitrary histories", "anchors": ["src/mpllayout/containers.py:ItemCounter.add_item", "src/mpllayout/containers.py:ItemCounter.add_item_until_valid", "src/mpllayout/containers.py:ItemCounter.add_item_to_nodes"]}
{"id": "C12", "title": "Polygons are closed loops", "statement": "A polygon built from n points has n lines 'Line0'..'Line{n-1}', line i runs from point i to point (i+1) mod n, and the end point of each line is the same object as the start point of the next.", "quantifier": "every n and every list of points", "why_tests_cant": "every n", "anchors": ["src/mpllayout/primitives.py:Polygon.init_children"]}
{"id": "C13", "title": "Constructors enforce primitive signatures", "statement": "Every primitive returned by a constructor has the declared parameter-vector size and child types. The base constructor accepts exactly the arguments that conform to the signature; Point accepts exactly two-entry vectors, Polygon exactly Points; Line takes the first two of the given Points and raises for fewer or others (surplus points are silently dropped). isinstance relations between the classes are those of the class statements.", "quantifier": "every class, every value vector and list of argument primitives", "why_tests_cant": "arbitrary arguments", "anchors": ["src/mpllayout/primitives.py:PrimitiveNode.__init__", "src/mpllayout/primitives.py:validate_prims"]}
{"id": "C14", "title": "A quadrilateral takes exactly four vertices", "statement": "`Quadrilateral(children=points)` succeeds exactly for four points and otherwise raises ValueError.", "quantifier": "every list of points", "why_tests_cant": "every length", "anchors": ["src/mpllayout/primitives.py:Quadrilateral"]}
{"id": "C15", "title": "Axes children follow the axis flags", "statement": "`Axes(xaxis=, yaxis=, twinx=, twiny=)` has children Frame, then XAxis/XAxisLabel, YAxis/YAxisLabel, then TwinXAxis/..., TwinYAxis/... exactly as requested (twins only with their primary axis). Explicitly supplied prims are accepted exactly when the first of them, as many as the flags request, have the requested classes in order; fewer raise, and surplus prims are ignored.", "quantifier": "all flag combinations, all explicitly supplied prims", "why_tests_cant": "combination space and arbitrary supplied tuples", "anchors": ["src/mpllayout/primitives.py:Axes.init_children", "src/mpllayout/primitives.py:Axes.default_prims"]}
{"id": "C16", "title": "Unique-value extraction is faithful", "statement": "For any primitive tree, every node key is mapped to an index of the value list that holds that node's own parameter vector; two nodes get the same index exactly when they hold the same array object; every value in the list belongs to some node and appears once.", "quantifier": "every primitive tree with any sharing pattern", "why_tests_cant": "arbitrary sharing patterns", "anchors": ["src/mpllayout/primitives.py:filter_unique_values_from_prim"]}
{"id": "C17", "title": "Rebuilding a primitive tree from unique values", "statement": "Rebuilding with the extracted values gives back an equal tree; rebuilding with new values gives a tree with the same keys and types where each node holds the new value at its index, so nodes that shared a vector still share it.", "quantifier": "every primitive tree, every list of replacement values", "why_tests_cant": "arbitrary trees and sharing", "anchors": ["src/mpllayout/primitives.py:build_prim_from_unique_values"]}
{"id": "C18", "title": "Degrees of freedom of a polygon", "statement": "The unknowns extracted from a polygon on n distinct points are exactly its n points' coordinates, 2n numbers, not 4n.", "quantifier": "every n", "why_tests_cant": "every n", "anchors": ["src/mpllayout/primitives.py:filter_unique_values_from_prim", "src/mpllayout/primitives.py:Polygon"]}
{"id": "C19", "title": "Packing and unpacking the global parameter vector", "statement": "Concatenating the unique values and slicing the result at the cumulative sizes returns the original values, and any vector of that total length is split into pieces whose concatenation is that vector and whose sizes are the declared ones.", "quantifier": "every list of vectors", "why_tests_cant": "arbitrary numbers and sizes of vectors", "anchors": ["src/mpllayout/solver.py:solve_newton", "src/mpllayout/solver.py:solve_minimize"]}
{"id": "C20", "title": "Calling a construction evaluates its whole tree", "statement": "`cons(prims, *params)` returns its own output followed by the outputs of its child constructions, depth-first, each child evaluated on the primitives selected by its 'arg{i}/path' keys and on the parameters its parent derives for it.", "quantifier": "every construction tree, primitives and parameters", "why_tests_cant": "arbitrary trees", "anchors": ["src/mpllayout/constructions.py:ConstructionNode.__call__", "src/mpllayout/constructions.py:ConstructionNode.assem_from_tree", "src/mpllayout/constructions.py:ConstructionNode.root_prim_keys", "src/mpllayout/constructions.py:ConstructionNode.root_params", "src/mpllayout/constructions.py:ConstructionNode.child_prim_keys"]}
{"id": "C21", "title": "Declared output sizes are the actual sizes", "statement": "Every shipped construction and constraint except CoincidentLines and the constraints made of it (CoincidentOutwardFaces, PositionXAxis, PositionYAxis) returns, at each node, exactly as many numbers as its signature declares; CoincidentLines declares 2 and always returns 4.", "quantifier": "every such construction, arrays and grids of every size, all valid primitives and parameters of the documented form", "why_tests_cant": "all inputs", "anchors": ["src/mpllayout/constructions.py:ConstructionNode.validate_value", "src/mpllayout/constraints.py:CoincidentLines"]}
{"id": "C22", "title": "Sums exist exactly for matching constructions", "statement": "`a + b` is accepted exactly when a and b have the same child keys at every level and the same declared size at every node; otherwise it raises AssertionError.", "quantifier": "every pair of construction trees", "why_tests_cant": "arbitrary pairs of trees", "anchors": ["src/mpllayout/constructions.py:transform_sum"]}
{"id": "C23", "title": "Sums add node by node", "statement": "`a + b` is built node by node: at each node the outputs of a on the first arguments and of b on the remaining ones are added, and its parts are the sums of the parts, with the primitive keys of both summands' parts read against the joined argument list. Hence `(a + b)(prims_a + prims_b, *params_a, *params_b) == a(prims_a, *params_a) + b(prims_b, *params_b)` whenever, at every node, a takes no primitives or b's parts take none; otherwise it fails (Width + Width evaluates the first quadrilateral twice).", "quantifier": "every pair of summable constructions, all inputs", "why_tests_cant": "arbitrary trees and inputs", "anchors": ["src/mpllayout/constructions.py:transform_sum", "src/mpllayout/constructions.py:concatenate_construction_inputs"]}
{"id": "C24", "title": "Scalar multiples and negation", "statement": "`(c * a)(prims, *params)`, `(-a)(...)` and `(Scalar() * a)(prims, *params, c)` are c (or -1) times `a(prims, *params)`, entry by entry at every node.", "quantifier": "every construction, scalar, inputs", "why_tests_cant": "arbitrary trees and inputs", "anchors": ["src/mpllayout/constructions.py:transform_scalar_mul", "src/mpllayout/constructions.py:ConstructionNode.__neg__"]}
{"id": "C25", "title": "Scalar division", "statement": "`(a / c)(prims, *params)` and `(a / Scalar())(prims, *params, c)` are `a(prims, *params)` divided by c, for non-zero c.", "quantifier": "every construction, non-zero scalar, inputs", "why_tests_cant": "arbitrary trees and inputs", "anchors": ["src/mpllayout/constructions.py:transform_scalar_div"]}
{"id": "C26", "title": "Scalar powers", "statement": "`(a ** c)(prims, *params)` is `a(prims, *params)` raised entry by entry to c.", "quantifier": "every construction, scalar, inputs", "why_tests_cant": "arbitrary trees and inputs", "anchors": ["src/mpllayout/constructions.py:transform_scalar_pow"]}
{"id": "C27", "title": "A constraint is construction minus target", "statement": "For every construction at most one level deep - every shipped one is - and every number target, the derived constraint returns `construction(prims, *params) - value`, one residual per output, so it vanishes exactly when the construction has the target value. For array targets of the length of the value the same holds for single-node constructions; compound constructions accept arrays of at most one entry and raise for longer ones. Array targets of another length: a single-node construction with one value is compared with every entry, an array of one entry is the target of every value, any other mismatch raises. (For deeper trees the residuals can silently vanish.)", "quantifier": "every construction of depth at most one, inputs, target number or array", "why_tests_cant": "arbitrary construction trees", "anchors": ["src/mpllayout/constructions.py:transform_constraint", "src/mpllayout/constructions.py:Vector"]}
{"id": "C28", "title": "Mapping a construction over primitives", "statement": "`transform_map(cons, N prims)` evaluates cons once per primitive n < N-M on (prims[n], *prims[N-M:]) with the n-th group of parameters, concatenated in order, M being the number of extra primitives cons takes.", "quantifier": "every construction, every N, inputs", "why_tests_cant": "every N", "anchors": ["src/mpllayout/constructions.py:transform_map"]}
{"id": "C29", "title": "Partial application fixes the trailing parameters", "statement": "`transform_partial(cons, *frozen)(prims, *rest) == cons(prims, *rest, *frozen)` for at least one frozen parameter. Freezing none gives a construction that takes no parameters, which equals cons exactly when that takes none, and otherwise raises TypeError for every call with parameters.", "quantifier": "every construction, every split of the parameters", "why_tests_cant": "arbitrary numbers of parameters", "anchors": ["src/mpllayout/constructions.py:transform_partial"]}
{"id": "C30", "title": "Chunking partitions", "statement": "`chunk(array, sizes)` yields len(sizes) pieces that concatenate to the array and have the requested sizes whenever the sizes add up to the array length.", "quantifier": "every array and list of sizes", "why_tests_cant": "arbitrary sizes", "anchors": ["src/mpllayout/constructions.py:chunk"]}
{"id": "C31", "title": "Inputs are validated before evaluation", "statement": "Calling a construction with the wrong number of primitives, a primitive of a wrong type, or the wrong number of parameters raises TypeError; with valid inputs no validation error is raised.", "quantifier": "every construction and inputs", "why_tests_cant": "arbitrary inputs", "anchors": ["src/mpllayout/constructions.py:ConstructionNode.validate_prims", "src/mpllayout/constructions.py:ConstructionNode.validate_params"]}
{"id": "C32", "title": "What construction constructors reject", "statement": "Building a construction raises ValueError exactly when the number of child-primitive key tuples differs from the number of children or a child key is the empty string. (The per-child comparison of key-tuple length and signature written in the code never fires.)", "quantifier": "every value/children combination", "why_tests_cant": "arbitrary combinations", "anchors": ["src/mpllayout/constructions.py:ConstructionNode.__init__"]}
{"id": "C33", "title": "Which operators accept plain numbers", "statement": "`x * cons` and, unless cons is a Scalar, `cons * x` work for every plain number x; `cons + x`, `x + cons` and `Scalar * x` always raise AttributeError, contrary to their annotations.", "quantifier": "every construction and number", "why_tests_cant": "all operand kinds", "anchors": ["src/mpllayout/constructions.py:ConstructionNode.__add__", "src/mpllayout/constructions.py:ConstructionNode.__radd__", "src/mpllayout/constructions.py:ConstructionNode.__mul__", "src/mpllayout/constructions.py:ConstructionNode.__rmul__"]}
{"id": "C34", "title": "Point constraints", "statement": "Fix vanishes iff the point is at the target; Coincident iff the points are equal; XDistance/YDistance/DirectedDistance iff the signed x / y / projected distance from the first to the second point equals the target; the residual is the signed error.", "quantifier": "all points, directions and targets", "why_tests_cant": "all reals", "anchors": ["src/mpllayout/constraints.py:Fix", "src/mpllayout/constraints.py:Coincident", "src/mpllayout/constraints.py:DirectedDistance", "src/mpllayout/constraints.py:XDistance", "src/mpllayout/constraints.py:YDistance"]}
{"id": "C35", "title": "Single-line constraints", "statement": "Length, XLength, YLength, DirectedLength vanish iff the (signed) length equals the target; Horizontal/Vertical iff both end points have the same y / x.", "quantifier": "all lines and targets", "why_tests_cant": "all reals", "anchors": ["src/mpllayout/constraints.py:Length", "src/mpllayout/constraints.py:XLength", "src/mpllayout/constraints.py:YLength", "src/mpllayout/constraints.py:DirectedLength", "src/mpllayout/constraints.py:Horizontal", "src/mpllayout/constraints.py:Vertical"]}
{"id": "C36", "title": "Two-line constraints", "statement": "RelativeLength vanishes iff |l0| = value*|l1|; MidpointX/YDistance iff the signed midpoint distance from the first to the second equals the target; Orthogonal iff the direction vectors are perpendicular; Parallel iff they are linearly dependent.", "quantifier": "all pairs of lines, all targets", "why_tests_cant": "all reals", "anchors": ["src/mpllayout/constraints.py:RelativeLength", "src/mpllayout/constraints.py:MidpointXDistance", "src/mpllayout/constraints.py:MidpointYDistance", "src/mpllayout/constraints.py:Orthogonal", "src/mpllayout/constraints.py:Parallel"]}
{"id": "C37", "title": "Angle between lines", "statement": "The Angle construction returns an angle that turns the first line's direction into the second's, in (-2 pi, 2 pi); the derived constraint vanishes only if the second line is at the target angle. (The value need not lie in (-pi, pi]: from 135 to -135 degrees it is -270.)", "quantifier": "all pairs of non-degenerate lines", "why_tests_cant": "all reals incl. the branch cut", "anchors": ["src/mpllayout/constructions.py:Angle"]}
{"id": "C38", "title": "Collinear", "statement": "Collinear vanishes iff both end points of the second line lie on the infinite line through the first (first line non-degenerate).", "quantifier": "all pairs of lines", "why_tests_cant": "all reals", "anchors": ["src/mpllayout/constraints.py:Collinear"]}
{"id": "C39", "title": "CoincidentLines", "statement": "CoincidentLines vanishes iff the lines have the same end points, start-to-start for reverse=False and start-to-end for reverse=True.", "quantifier": "all pairs of lines", "why_tests_cant": "all reals", "anchors": ["src/mpllayout/constraints.py:CoincidentLines"]}
{"id": "C40", "title": "Point/line distances", "statement": "PointOnLineDistance is the signed projection along the line from its start (from its end towards the start if reversed); PointToLineDistance is the signed distance to the left (right if reversed) of the line; RelativePointOnLineDistance is the projection divided by the length; reversing complements/negates them.", "quantifier": "all points and non-degenerate lines", "why_tests_cant": "all reals", "anchors": ["src/mpllayout/constructions.py:PointOnLineDistance", "src/mpllayout/constructions.py:PointToLineDistance", "src/mpllayout/constructions.py:RelativePointOnLineDistance"]}
{"id": "C41", "title": "Box", "statement": "Box vanishes on a quadrilateral iff it is an axis-aligned rectangle with Line0/Line2 horizontal and Line1/Line3 vertical.", "quantifier": "all quadrilaterals", "why_tests_cant": "all reals", "anchors": ["src/mpllayout/constraints.py:Box"]}
{"id": "C42", "title": "Width, Height, AspectRatio", "statement": "Width/Height vanish iff the signed bottom-line x extent / right-line y extent equals the target; on a Box quadrilateral this is right minus left / top minus bottom; AspectRatio iff |bottom| = value*|side|.", "quantifier": "all quadrilaterals and targets", "why_tests_cant": "all reals", "anchors": ["src/mpllayout/constraints.py:Width", "src/mpllayout/constraints.py:Height", "src/mpllayout/constraints.py:AspectRatio"]}
{"id": "C43", "title": "Margins", "statement": "On Box quadrilaterals, InnerMargin/OuterMargin of each side vanish iff the documented signed gap between the respective sides equals the target.", "quantifier": "all pairs of boxes, four sides, inner and outer, all targets", "why_tests_cant": "all reals and sides", "anchors": ["src/mpllayout/constraints.py:OuterMargin", "src/mpllayout/constraints.py:InnerMargin", "src/mpllayout/constructions.py:Margin"]}
{"id": "C44", "title": "OuterMarginArray", "statement": "For N boxes and N-1 margins, OuterMarginArray vanishes iff each consecutive pair has its margin.", "quantifier": "every N, all boxes", "why_tests_cant": "every N", "anchors": ["src/mpllayout/constraints.py:OuterMarginArray"]}
{"id": "C45", "title": "Rectilinear grids align", "statement": "If RectilinearGrid vanishes on an r x c arrangement of non-degenerate boxes then all boxes in a row share bottom and top, and all boxes in a column share left and right; conversely such arrangements have zero residual.", "quantifier": "every shape (r, c), all boxes", "why_tests_cant": "every shape", "anchors": ["src/mpllayout/constraints.py:RectilinearGrid", "src/mpllayout/constraints.py:Align"]}
{"id": "C46", "title": "Grid dimensions", "statement": "If Grid vanishes then, besides alignment, column j's width is col_widths[j-1] times column 0's, row i's height is row_heights[i-1] times row 0's, and the gaps between consecutive columns / rows are the given margins; conversely such arrangements have zero residual.", "quantifier": "every shape, boxes and parameter arrays", "why_tests_cant": "every shape", "anchors": ["src/mpllayout/constraints.py:Grid"]}
{"id": "C47", "title": "Multi-index flattening", "statement": "For shapes of at most two dimensions, all that the grids use, `idx_1d` maps the multi-indices of the shape one-to-one onto 0..size-1 in row-major order. (With three dimensions it is not one-to-one.)", "quantifier": "every shape with at most two dimensions and every multi-index", "why_tests_cant": "every shape", "anchors": ["src/mpllayout/constraints.py:idx_1d"]}
{"id": "C48", "title": "Axis placement", "statement": "PositionXAxis/PositionYAxis vanish iff the axis quadrilateral's facing side coincides with the chosen frame side, and for twins the twin axis lies on the opposite side; opposite_side is an involution without fixed points.", "quantifier": "all axes geometries, sides, twin flags", "why_tests_cant": "all reals", "anchors": ["src/mpllayout/constraints.py:PositionAxis", "src/mpllayout/constraints.py:CoincidentOutwardFaces", "src/mpllayout/constructions.py:opposite_side"]}
{"id": "C49", "title": "Axis label placement", "statement": "PositionXAxisLabel/PositionYAxisLabel vanish iff the (twin) label's projection on the bottom/right frame line is the requested fraction of that line.", "quantifier": "all axes geometries, twin flag, fractions", "why_tests_cant": "all reals", "anchors": ["src/mpllayout/constraints.py:PositionAxisLabel"]}
{"id": "C50", "title": "Measuring an axis leaves it unchanged", "statement": "Measuring an axis thickness leaves the label's visibility as it was and succeeds if the axis has no extent or its tick position is one of the four sides; for any other tick position it raises ValueError and leaves the label hidden.", "quantifier": "every axis state, every tick position", "why_tests_cant": "exceptional paths", "anchors": ["src/mpllayout/constraints.py:get_axis_thickness"]}
{"id": "C51", "title": "Constraints, primitive keys and parameters stay in lockstep", "statement": "After any sequence of add_prim/add_prims/add_constraint calls, some of which may fail, with constraints that derive parameters for all their parts - in particular all shipped ones with parameters of the documented form - the constraint tree, the primitive-key tree and the parameter tree of a layout have the same keys in the same order at every level, so flattened lists correspond entry by entry. (A Grid without the documented margins breaks this.)", "quantifier": "every such call history", "why_tests_cant": "arbitrary histories", "anchors": ["src/mpllayout/layout.py:Layout.add_constraint", "src/mpllayout/layout.py:Layout.flat_constraints"]}
{"id": "C52", "title": "A rejected add_constraint leaves the layout unchanged", "statement": "If add_constraint raises because its primitives or parameters are rejected, or for any reason when the constraint's key and parameter trees can be built (all shipped constraints with documented parameters), the layout's primitives, constraints, keys and parameters are exactly as before; only the counter for generated keys may have advanced. (A Grid given numbers instead of arrays raises and leaves its constraint and keys behind.)", "quantifier": "every layout reached, constraint, keys, parameters", "why_tests_cant": "exception paths", "anchors": ["src/mpllayout/layout.py:Layout.add_constraint"]}
{"id": "C53", "title": "The layout residual is the concatenation of its constraints' residuals", "statement": "Evaluating a layout's flattened constraints on its primitives gives, in insertion order, exactly the values of `constraint(prims, *params)` for each added constraint (added under keys without '/', so that insertion order is tree order); with no constraint it raises ValueError.", "quantifier": "every layout history", "why_tests_cant": "arbitrary histories and compound constraints", "anchors": ["src/mpllayout/layout.py:Layout.flat_constraints", "src/mpllayout/solver.py:assem_constraint_residual"]}
{"id": "C54", "title": "Updating matplotlib-dependent parameters touches nothing else", "statement": "`update_layout_constraints` returns a layout with the same primitives and constraints in which exactly the axis-thickness constraints' parameters are replaced by those derived from the given axes; all other parameters and the tree shape are unchanged; the input layout is not modified.", "quantifier": "every layout", "why_tests_cant": "arbitrary layouts", "anchors": ["src/mpllayout/layout.py:update_layout_constraints", "src/mpllayout/layout.py:update_root_param"]}
{"id": "C55", "title": "Wrong-length nested parameters", "statement": "A Grid given too few widths or heights raises; entries beyond one per additional column/row in any of the four arrays have no effect. (Too few margins are silently accepted.)", "quantifier": "every shape and parameter arrays", "why_tests_cant": "malformed inputs of any size", "anchors": ["src/mpllayout/constraints.py:Grid", "src/mpllayout/constraints.py:OuterMarginArray", "src/mpllayout/constructions.py:ConstructionNode.root_params"]}
{"id": "C56", "title": "add_prim(s) store primitives under their keys", "statement": "After add_prim/add_prims, each key resolves to its primitive, duplicates raise KeyError, and a failing add_prims keeps exactly the primitives before the failing key.", "quantifier": "every layout, every dictionary of primitives", "why_tests_cant": "arbitrary histories", "anchors": ["src/mpllayout/layout.py:Layout.add_prim", "src/mpllayout/layout.py:Layout.add_prims"]}
{"id": "C57", "title": "The Newton solver stops and reports one error per iteration", "statement": "solve performs at most max_iter iterations; abs_errs and rel_errs have one entry per iteration; entry k is the residual norm of iterate k (and its ratio to entry 0); it stops exactly at the first iteration meeting a tolerance.", "quantifier": "every layout, tolerances, iteration limits, linear-algebra backend", "why_tests_cant": "arbitrary iterations", "anchors": ["src/mpllayout/solver.py:solve_newton"]}
{"id": "C58", "title": "The solved tree has the layout's structure", "statement": "The tree returned by solve has the same keys, types and vector sizes as the layout's primitives, and primitives that shared a point still do; with max_iter=0 it is unchanged.", "quantifier": "every layout, every backend", "why_tests_cant": "arbitrary trees", "anchors": ["src/mpllayout/solver.py:solve_newton", "src/mpllayout/solver.py:solve_minimize"]}
{"id": "C59", "title": "What the reported Newton error means", "statement": "The last reported absolute error is the 2-norm of the constraints on the tree before the last correction, and the returned primitives are that tree plus the correction. (So a reported error within abs_tol does not imply that the returned primitives are within abs_tol: there is a layout where every exact Newton backend reports an error below 2 and returns primitives with error above 5.)", "quantifier": "every layout and backend", "why_tests_cant": "all residual functions", "anchors": ["src/mpllayout/solver.py:solve_newton"]}
{"id": "C60", "title": "Affine layouts are solved in one Newton step", "statement": "If all constraints are affine (Box, Fix, Coincident, distances, X/Y lengths, Width, Height, margins, axis placement, ...) and jointly satisfiable, solve with max_iter >= 1 returns primitives satisfying every constraint exactly (exact arithmetic).", "quantifier": "every such layout", "why_tests_cant": "arbitrary layouts", "anchors": ["src/mpllayout/solver.py:solve_newton", "src/mpllayout/constraints.py:Box"]}
{"id": "C61", "title": "Solver method dispatch", "statement": "solve runs newton or minimize as named and raises ValueError for any other method without touching the layout.", "quantifier": "every method string", "why_tests_cant": "all strings", "anchors": ["src/mpllayout/solver.py:solve"]}
{"id": "C62", "title": "What the minimize history means", "statement": "For method 'minimize', abs_errs[k] is the sum of squares of the constraints at intermediate result k, rel_errs[k] its ratio to abs_errs[0], the run ends at the first entry below a tolerance and the returned tree is the last intermediate result. (Unlike for 'newton' these are not 2-norms and not relative to the initial error.)", "quantifier": "every sequence of intermediate results", "why_tests_cant": "arbitrary optimisation runs", "anchors": ["src/mpllayout/solver.py:solve_minimize", "src/mpllayout/solver.py:solve"]}
{"id": "C63", "title": "Figure and axes geometry transfer", "statement": "subplots sets the figure size to the figure box's width and height and places each axes so that its rectangle, scaled by the figure size and shifted by the figure origin, is exactly the solved frame box.", "quantifier": "all solved trees with a non-degenerate figure", "why_tests_cant": "all reals", "anchors": ["src/mpllayout/matplotlibutils.py:update_subplots", "src/mpllayout/matplotlibutils.py:rect_from_box", "src/mpllayout/matplotlibutils.py:width_and_height_from_quad"]}
{"id": "C64", "title": "Axis labels are placed at their solved points", "statement": "There is one label-position call per label present and none else; the coordinates handed to matplotlib, scaled by the figure size, are the label point measured from the layout origin, hence the right place if the figure's lower-left corner is at the origin. (Otherwise the label is shifted by that corner.)", "quantifier": "all solved trees", "why_tests_cant": "all reals", "anchors": ["src/mpllayout/matplotlibutils.py:update_subplots"]}
{"id": "C65", "title": "Tick side follows the solved axis", "statement": "If an axis quadrilateral of positive size is placed exactly on one side of a frame of positive size, the tick position handed to matplotlib is that side.", "quantifier": "all frames, axes, sides", "why_tests_cant": "all reals", "anchors": ["src/mpllayout/matplotlibutils.py:find_axis_position"]}
{"id": "C66", "title": "subplots creates one matplotlib axes per axes key", "statement": "Without explicit keys, exactly the top-level primitives whose key contains 'Axes' get a matplotlib axes, in order; with explicit keys exactly those.", "quantifier": "every tree and key list", "why_tests_cant": "all key strings", "anchors": ["src/mpllayout/matplotlibutils.py:subplots"]}
{"id": "C67", "title": "Primitive plots have valid opacity", "statement": "Every primitive drawn by plot_prims has opacity in [0.2, 1], top-level primitives 1.", "quantifier": "every tree", "why_tests_cant": "arbitrary depth", "anchors": ["src/mpllayout/ui.py:plot_prim"]}
{"id": "C68", "title": "Label rotation", "statement": "rotation_from_line is in [0, 360] degrees and is the angle of the line's direction if the line does not point downwards or is vertical; for the other lines it is the angle of the direction mirrored at the vertical axis.", "quantifier": "all non-degenerate lines", "why_tests_cant": "all reals", "anchors": ["src/mpllayout/ui.py:rotation_from_line"]}
{"id": "C69", "title": "Axis thickness constraint", "statement": "XAxisThickness (YAxisThickness) vanishes iff the axis quadrilateral's height (width) is the distance, in inches, by which the axis decorations without the label reach beyond the axes rectangle on the tick side; 0 if there are none or no axis is given.", "quantifier": "all quadrilaterals, all axis states with a tick side", "why_tests_cant": "all reals and axis states", "anchors": ["src/mpllayout/constraints.py:AxisThickness", "src/mpllayout/constraints.py:get_axis_thickness"]}
{"id": "C70", "title": "Shipped constraints hand each part what it declares", "statement": "Applied to primitives of its declared classes (as built by the constructors) and parameters of the documented form, every shipped constraint hands each of its child constraints, at every depth, primitives of the classes the child declares and exactly as many parameters as it declares.", "quantifier": "every shipped constraint, every grid shape and array length, all primitives", "why_tests_cant": "dozens of compound constraints with string keys, unbounded grid shapes", "anchors": ["src/mpllayout/constraints.py", "src/mpllayout/constructions.py:ConstructionNode.child_prim_keys"]}
{"id": "C71", "title": "Layout trees stay well-formed", "statement": "After any sequence of add_prim, add_prims, add_constraint and update calls, including ones that raise, each of the layout's trees has distinct slash-free keys at every level, every key reported by iteration resolves to that node and vice versa, and the layout holds only arrays of primitives that were handed in.", "quantifier": "every call history", "why_tests_cant": "arbitrary histories with failures", "anchors": ["src/mpllayout/layout.py:Layout", "src/mpllayout/containers.py:Node.add_child"]}
{"id": "C72", "title": "Constructors allocate fresh arrays", "statement": "Every primitive constructor returns a well-formed tree whose arrays are either arrays of its arguments or freshly allocated; two primitives built from default arguments share no array (so solving one does not move the other).", "quantifier": "every argument, every constructor", "why_tests_cant": "all argument forms", "anchors": ["src/mpllayout/primitives.py:Primitive.__init__", "src/mpllayout/primitives.py:Axes"]}
{"id": "C73", "title": "Plots show every primitive once", "statement": "plot_prims draws every primitive of the tree exactly once, in depth-first order (so parents before children), except the end points of lines and lines of length zero, and raises nothing: a point at its coordinates, a line between its end points with its label at the midpoint and turned along the line, a polygon with any number of vertices by these vertices in order with its label at the first; the label is one dot per level and the last key component.", "quantifier": "every tree", "why_tests_cant": "arbitrary depth and branching", "anchors": ["src/mpllayout/ui.py:plot_prims", "src/mpllayout/ui.py:plot_prim", "src/mpllayout/ui.py:plot_line", "src/mpllayout/ui.py:plot_polygon"]}
{"id": "C74", "title": "Default and given arguments of primitive constructors", "statement": "Point() is at (0,0); Line() runs from (0,0) to (0,1); Quadrilateral() is the unit square, its four sides listed anticlockwise from the lower one, each starting where the previous one ends; Polygon(size=n) is the regular n-gon on the unit circle whose k-th side runs from angle 2*pi*k/n to 2*pi*(k+1)/n, closed, and Polygon(size=0) raises; the boxes of a default Axes are unit squares and its labels are at the origin. Arguments that are given are used unchanged as the children, under the documented keys.", "quantifier": "every constructor and every polygon size", "why_tests_cant": "the number of sides is unbounded", "anchors": ["src/mpllayout/primitives.py:Point", "src/mpllayout/primitives.py:Line", "src/mpllayout/primitives.py:Polygon", "src/mpllayout/primitives.py:Quadrilateral", "src/mpllayout/primitives.py:Axes"]}
{"id": "C75", "title": "Changes reach exactly the holders of the changed object", "statement": "Nodes are shared objects: add_child and item assignment change the children of exactly one object, so every tree that holds that object shows the change at every place where it occurs, and every tree that does not hold it is untouched; a rejected call changes nothing; adding a node somewhere below itself is accepted and leaves a structure that is no longer a tree.", "quantifier": "every collection of nodes with arbitrary sharing, every key", "why_tests_cant": "arbitrary sharing patterns", "anchors": ["src/mpllayout/containers.py:Node.add_child", "src/mpllayout/containers.py:Node.__setitem__", "src/mpllayout/containers.py:Node.get_child"]}
{"id": "C76", "title": "copy() is independent of the original", "statement": "`node.copy()` returns a node showing the same tree, all of whose nodes are new objects, and changes no existing object; later changes of the original's nodes do not show in the copy and vice versa (although the values themselves are shared).", "quantifier": "every node, every sharing pattern, every later change", "why_tests_cant": "arbitrary trees and sharing patterns", "anchors": ["src/mpllayout/containers.py:Node.copy", "src/mpllayout/containers.py:unflatten", "src/mpllayout/containers.py:iter_flat"]}
{"id": "C77", "title": "What an updated layout shares with the original", "statement": "update_layout_constraints changes no existing object; the layout it returns holds the same primitive, constraint and key objects as the original but only new parameter nodes, so no later call on the returned layout ever changes the original's parameters. (But constraints added to the returned layout do appear in the original, without parameters; adding a constraint to the original afterwards then pairs the first constraint with the second one's parameters.)", "quantifier": "every layout, every sharing of its objects, every later call history", "why_tests_cant": "arbitrary sharing and histories", "anchors": ["src/mpllayout/layout.py:update_layout_constraints", "src/mpllayout/layout.py:update_root_param", "src/mpllayout/layout.py:Layout.__init__"]}
{"id": "C78", "title": "Layout calls use the objects handed in and modify nothing else", "statement": "For any sequence of add_prim/add_prims/add_constraint calls with slash-free keys, some of which may fail and whose arguments may share nodes with each other and with other layouts, every outcome and every resulting tree depends only on the trees the arguments show, and of the objects existing before only the layout's four root nodes are changed. A key below a primitive added before puts the new primitive into that primitive object itself, visible to everyone holding it.", "quantifier": "every call history, every sharing pattern", "why_tests_cant": "arbitrary sharing and histories", "anchors": ["src/mpllayout/layout.py:Layout.add_prim", "src/mpllayout/layout.py:Layout.add_prims", "src/mpllayout/layout.py:Layout.add_constraint", "src/mpllayout/layout.py:Layout.flat_constraints"]}
{"id": "C79", "title": "Build, solve, draw", "statement": "If a layout of shipped constraints has been solved up to a residual of e, every constraint that was added is satisfied up to e on the primitives its keys name; if it asked for a figure of w by h inches and for axes with given inner margins, then subplots makes a figure of this size whose axes have these margins in inches, all up to 2*e (exactly if e = 0). For the README program this goes through for every figure size other than 0 and all margins: every call succeeds, one Newton step solves the layout, and the figure drawn has that size and the axes rectangle (left/w, bottom/h, (w-left-right)/w, (h-bottom-top)/h).", "quantifier": "every such history, every number of axes, all sizes, margins and tolerances, every solver output", "why_tests_cant": "arbitrary histories, any number of axes, all reals", "anchors": ["src/mpllayout/layout.py:Layout.add_constraint", "src/mpllayout/solver.py:solve", "src/mpllayout/matplotlibutils.py:subplots", "src/mpllayout/constraints.py:InnerMargin", "README.md"]}
{"id": "C80", "title": "Values depend on the content of the primitives", "statement": "The value of any construction made from the shipped ones with partial, map, constraint, +, -, *, /, ** and the compound classes depends on the classes, keys and numbers of the primitives handed in only: primitives with the same content give the same value or the same error, whichever array objects hold the numbers and however these are shared. The same holds for the residual of a layout.", "quantifier": "every such expression of any size, every list of primitives and parameters, every layout history", "why_tests_cant": "unbounded nesting of operators", "anchors": ["src/mpllayout/constructions.py", "src/mpllayout/constraints.py", "src/mpllayout/solver.py:assem_constraint_residual"]}
{"id": "C81", "title": "The number of equations does not depend on the numbers", "statement": "The number of entries of the value of any such construction, and the number of entries of a layout's residual, is the same for any two trees of primitives with the same classes, keys and array sizes, so the Jacobian keeps its shape throughout a solve.", "quantifier": "every such expression of any size, all numbers, every layout history", "why_tests_cant": "unbounded nesting of operators, all reals", "anchors": ["src/mpllayout/constructions.py", "src/mpllayout/constraints.py", "src/mpllayout/solver.py:solve_newton"]}
{"id": "C82", "title": "A satisfied layout is left alone", "statement": "If all constraints of a layout (of any expressions over the shipped constructions) are satisfied, solve returns primitives with the numbers unchanged after one iteration, with error 0, whatever the tolerances and iteration limit (exact arithmetic).", "quantifier": "every layout history, every backend that differentiates and solves least-squares problems exactly", "why_tests_cant": "arbitrary layouts and backends", "anchors": ["src/mpllayout/solver.py:solve_newton"]}
{"id": "C83", "title": "Over- and underdetermined affine layouts", "statement": "For affine constraints, satisfiable or not, solve with max_iter >= 1 returns primitives that minimise the sum of squares of all constraints over all placements of the primitives, and among the minimisers the one closest to the initial placement (in the numbers of all arrays); no other placement does.", "quantifier": "every layout of affine constraints, every backend that differentiates and solves least-squares problems exactly", "why_tests_cant": "arbitrary layouts", "anchors": ["src/mpllayout/solver.py:solve_newton"]}
{"id": "C84", "title": "Primitives no constraint refers to stay put", "statement": "A primitive whose array occurs nowhere in the primitives that the constraints' keys name has exactly the same numbers after solve, for linear and nonlinear constraints alike.", "quantifier": "every layout of shipped constraints, every such primitive, every exact backend", "why_tests_cant": "arbitrary layouts", "anchors": ["src/mpllayout/solver.py:solve_newton"]}
{"id": "C85", "title": "The order of constraints does not matter", "statement": "Two layouts with the same primitives and the same constraints, added in different orders and under different keys, are solved alike: one solve succeeds iff the other does, with the same primitives and the same reported errors (exact arithmetic).", "quantifier": "every pair of such layouts, every exact backend", "why_tests_cant": "all orders, arbitrary layouts", "anchors": ["src/mpllayout/solver.py:solve_newton", "src/mpllayout/layout.py:Layout.add_constraint"]}
{"id": "C86", "title": "Solving depends on the solutions of the constraints only", "statement": "Two layouts of affine constraints with the same primitives whose constraints are satisfied by the same placements (by at least one) are solved to the same primitives, whatever their constraints, tolerances, iteration limits (at least 1) and backends. In particular stating the same constraints several times, or in another order, changes nothing (exact arithmetic).", "quantifier": "every pair of such layouts, every exact backend", "why_tests_cant": "arbitrary layouts", "anchors": ["src/mpllayout/solver.py:solve_newton", "src/mpllayout/layout.py:Layout.add_constraint"]}
{"id": "C87", "title": "Newton steps go downhill and stop only at stationary points", "statement": "Where the residual of a layout (of any expressions over the shipped constructions) is differentiable, a single Newton iteration moves the primitives in a direction in which the sum of squares of the constraints has a negative slope, or does not move them at all; it does not move them exactly if the sum of squares is stationary, and then no number of iterations does, even if the constraints are violated (exact arithmetic).", "quantifier": "every layout history, every starting point where the residual is differentiable, every exact backend", "why_tests_cant": "nonlinear residuals, arbitrary layouts", "anchors": ["src/mpllayout/solver.py:solve_newton"]}
{"id": "C88", "title": "Constraints other than Fix do not depend on where the figure is", "statement": "Moving all primitives by the same vector changes neither the value nor the errors of any construction made from the shipped ones other than coordinates and midpoints, in particular of no shipped constraint except Fix. Hence adding moved primitives gives the moved layout (with the same errors), solving it returns the moved primitives and the same reported errors; and without Fix solve does not move the centroid of the distinct points (exact arithmetic; for nonlinear constraints if the residual is differentiable at the iterates).", "quantifier": "every such expression and call history, every displacement, every exact backend", "why_tests_cant": "unbounded nesting of operators, arbitrary layouts, all reals", "anchors": ["src/mpllayout/constructions.py", "src/mpllayout/constraints.py", "src/mpllayout/solver.py:solve_newton", "src/mpllayout/layout.py:Layout.add_prim"]}
{"id": "C89", "title": "The 'minimize' method: order, position, descent, bystanders, centroid", "statement": "solve(method='minimize') returns the same primitives and errors whatever the order and keys under which the constraints were added, if the optimiser depends on the objective through its values; it follows a translation of all primitives when no constraint is Fix, if the optimiser does not depend on the origin; the sum of squares at the returned primitives is not larger than at the start, if no intermediate result of the optimiser is; and it leaves unconstrained positions, and (without Fix) the centroid of the distinct points, alone, if the optimiser moves along gradients only.", "quantifier": "every layout history, tolerance, iteration limit, displacement, and every optimiser with the stated property", "why_tests_cant": "arbitrary layouts and optimisers", "anchors": ["src/mpllayout/solver.py:solve_minimize"]}
{"id": "C90", "title": "Children by position and by slice", "statement": "`node[i]` for an integer is the i-th child in insertion order, counted from the end if negative, and IndexError outside -len..len-1; it is the child found under the i-th key. `node[a:b:c]` lists exactly the children at the positions the slice denotes (any integers or absent bounds, any non-zero step, step 0 is ValueError): `node[:]` is all, `node[::-1]` all reversed, `node[:i]` followed by `node[i:]` is all for every integer i. Other keys raise TypeError. A child added under a plain key becomes the last position and moves no other.", "quantifier": "every tree, every integer index, all slice bounds and steps", "why_tests_cant": "unbounded integers and child counts", "anchors": ["src/mpllayout/containers.py:Node.__getitem__"]}
{"id": "C91", "title": "Nodes are jax pytrees", "statement": "Flattening a node or primitive with jax and unflattening it gives a tree with the same class and value under every key path; jax's tree_map applies the function to the value of every node and nothing else. There is one leaf per node, and a wrong number of leaves is ValueError. Two trees have equal tree definitions exactly if they have the same classes at the same key paths. The order of the children is not kept: it comes back as the order of sorted keys (so a tree is returned unchanged exactly if its keys are in that order at every level): the eleven sides of a polygon come back with Line10 after Line1.", "quantifier": "every tree, every function on values, every list of leaves", "why_tests_cant": "unbounded trees and keys", "anchors": ["src/mpllayout/containers.py:_make_flatten_unflatten", "src/mpllayout/primitives.py:_PrimitiveClasses"]}
{"id": "C92", "title": "A figure with a grid of axes", "statement": "Take a layout whose figure has a given width and height, with r x c axes whose frames are boxes, arranged with given column-width ratios, row-height ratios, column gaps and row gaps (by one Grid, or by a RectilinearGrid and relative lengths and outer margins along the first row and column), and an inner margin on each side, asked of any axes on that border. If all constraints hold (and the axes come out with positive sizes), the figure drawn has this size in inches, and the axes (i, j) is where dividing the space left over by margins and gaps in the given ratios puts it, rows counted from the top.", "quantifier": "every r, c >= 1, all ratios, gaps, margins and sizes, every layout history with these requests, every tree satisfying it", "why_tests_cant": "unbounded grids, all reals", "anchors": ["src/mpllayout/constraints.py:Grid", "src/mpllayout/constraints.py:RectilinearGrid", "src/mpllayout/constraints.py:RelativeLength", "src/mpllayout/constraints.py:OuterMargin", "src/mpllayout/constraints.py:InnerMargin", "src/mpllayout/matplotlibutils.py:subplots"]}
{"id": "C93", "title": "What the text of a node tells", "statement": "If class names, values and keys print without parentheses and commas, two nodes have the same str()/repr() exactly if they have the same shape, the same keys in the same order, the same class names and the same texts of values at every level (so equal texts mean equal trees when names and value texts tell classes and values apart). A copy prints like the original only if every class of the original is called Node. Keys with commas can make different trees print alike, and the text does not show which primitives share an array.", "quantifier": "every pair of trees, every class naming and printing of values", "why_tests_cant": "unbounded trees and texts", "anchors": ["src/mpllayout/containers.py:Node.__repr__", "src/mpllayout/containers.py:Node.__str__"]}
{"id": "C94", "title": "Figures of primitives and their colours", "statement": "figure_prims sets up size, tick locators, aspect, grid and axis labels first and then draws exactly what plot_prims draws (it fails exactly if that fails); everything belonging to the i-th of the n primitives of the root is drawn in the colour map's colour for i/n: different numbers in [0, 1), increasing with i. With a map of 256 different colours, up to 256 primitives get different colours; with more, the first two share one.", "quantifier": "every tree, every colour map, every number of primitives", "why_tests_cant": "unbounded trees", "anchors": ["src/mpllayout/ui.py:figure_prims", "src/mpllayout/ui.py:plot_prims"]}
{"id": "C95", "title": "Making room for tick labels", "statement": "update_layout_constraints(layout, axs) gives a layout that asks for exactly what it asked before, except that every x (y) axis thickness constraint on K/... now asks for the thickness of the drawn x (y) axis of axs[K]; it succeeds if every thickness constraint names axes in axs that can be measured. If all constraints of the updated layout hold, the figure drawn by update_subplots has the asked size; the frame of each axes keeps the asked clearance to the figure edges, enlarged by the measured thickness on the side of each axis; ticks are on the asked sides; the axis labels are the asked distance outside the tick labels, at the asked fraction of the frame.", "quantifier": "every layout history of shipped constraints with these requests, all drawn axes, sides, clearances, paddings and sizes, every tree satisfying the updated layout", "why_tests_cant": "unbounded histories, all reals, all measured bounding boxes", "anchors": ["src/mpllayout/layout.py:update_layout_constraints", "src/mpllayout/constraints.py:XAxisThickness", "src/mpllayout/constraints.py:YAxisThickness", "src/mpllayout/matplotlibutils.py:update_subplots"]}
{"id": "C96", "title": "What constructions measure", "statement": "Called directly, Coordinate returns the point, DirectedDistance/XDistance/YDistance the projections of the vector from the first point to the second, LineVector/Length/DirectedLength/XLength/YLength/Midpoint the vector, length, projections and midpoint of the line, UnitLineVector a vector of length one along it, MidpointDirectedDistance/XDistance/YDistance the projections between midpoints, Width/Height/AspectRatio the extents of the quadrilateral and the ratio of its side lengths, InnerMargin/OuterMargin the gap on the given side. A direction without two components raises. Scalar and one-node Vector return their argument; a Vector over a size node with children returns the array followed by its parts again.", "quantifier": "every primitive geometry, direction and side; all size nodes of depth one and arrays", "why_tests_cant": "all real coordinates", "anchors": ["src/mpllayout/constructions.py:DirectedDistance", "src/mpllayout/constructions.py:UnitLineVector", "src/mpllayout/constructions.py:Midpoint", "src/mpllayout/constructions.py:Width", "src/mpllayout/constructions.py:InnerMargin", "src/mpllayout/constructions.py:OuterMargin", "src/mpllayout/constructions.py:Vector"]}
{"id": "C97", "title": "solve touches nothing and returns a tree of its own", "statement": "solve(layout) depends only on the trees the layout's objects show and changes no existing object, whether it succeeds or raises: every layout and tree there was, including those sharing objects with the one solved, is as before. The returned tree consists of new nodes, each at one place; changing them changes no older tree, and later calls on any older layout or changes of older nodes do not show in it. Solving again, even after the first solution was changed, gives the same solution and errors, in new objects.", "quantifier": "every layout, every sharing of its objects, every later change or call history, both methods", "why_tests_cant": "arbitrary sharing patterns and histories", "anchors": ["src/mpllayout/solver.py:solve", "src/mpllayout/primitives.py:filter_unique_values_from_prim", "src/mpllayout/primitives.py:build_prim_from_unique_values", "src/mpllayout/containers.py:unflatten"]}
{"id": "C98", "title": "Sizes that follow from others", "statement": "What was not asked for follows from what was: if all constraints hold (and figure and axes come out with positive sizes), a figure with a grid of axes, of which the width (height) and the aspect ratio of the first axes are asked, is drawn with the height (width) that margins, gaps, ratios and aspect ratio add up to, and the axes where C92 puts them. The figure of the colour-bar example (width, plot aspect, bar thickness, gap, margins, sides in line) and the figure of the two-axes example (size, width of the left axes, gap, margins, aligned in a row) are drawn with the sizes and margins that the requests leave over.", "quantifier": "every r, c >= 1, all ratios, gaps, margins, sizes and aspect ratios, every layout history with these requests, every tree satisfying it", "why_tests_cant": "unbounded grids, all reals", "anchors": ["src/mpllayout/constraints.py:AspectRatio", "src/mpllayout/constraints.py:Grid", "src/mpllayout/constraints.py:RectilinearGrid", "src/mpllayout/constraints.py:Collinear", "src/mpllayout/constraints.py:MidpointXDistance", "src/mpllayout/constraints.py:AlignRow", "src/mpllayout/matplotlibutils.py:subplots", "examples/contour_colorbar.ipynb", "examples/two_axes.ipynb"]}
{"id": "C99", "title": "One Newton iteration solves straight layouts started from default primitives", "statement": "If every constraint of a layout is of the shipped kinds that compare straight boxes (the linear ones on any primitives; Length, RelativeLength, Collinear, AlignRow, AlignColumn, RectilinearGrid and Grid on quadrilaterals or axes frames that start as the default unit square and are asked to be boxes), and the constraints can be met with all those boxes upright, then Newton's method with exact derivatives and an exact least-squares solve meets all constraints exactly after its first iteration, stays there, and returns among the upright solutions the one closest to the start (a unique one). For a grid figure drawing then succeeds, with exactly the requested size and margins.", "quantifier": "every history of shipped calls of these kinds, every satisfiable choice of sizes, ratios and margins, all tolerances and max_iter >= 1, every exact backend", "why_tests_cant": "Grid and Length are not linear, so that one step solves them is a fact about all layouts and numbers, not of a sample", "anchors": ["src/mpllayout/solver.py:solve_newton", "src/mpllayout/solver.py:solve", "src/mpllayout/constraints.py:Grid", "src/mpllayout/constraints.py:RelativeLength", "src/mpllayout/constraints.py:Collinear", "src/mpllayout/primitives.py:Quadrilateral"]}
{"id": "C100", "title": "Drawing a layout succeeds", "statement": "subplots and update_subplots do not fail on a tree with the structure of a layout (solved or not, by whatever solver) if the figure is a quadrilateral whose opposite corners differ in both coordinates and each axes key names an Axes(...), with any choice of x, y and twin axes; axes may also be found by their names. In particular after a solve that leaves residual at most e: if the figure's size was asked to be w by h with |w|, |h| > 2e, drawing succeeds, with size and margins within 2e of the requested ones.", "quantifier": "every layout history, every tree of its structure, every list of axes keys, both solver methods, any backend and tolerances", "why_tests_cant": "all trees and all backends", "anchors": ["src/mpllayout/matplotlibutils.py:subplots", "src/mpllayout/matplotlibutils.py:update_subplots", "src/mpllayout/matplotlibutils.py:find_axis_position", "src/mpllayout/primitives.py:Axes", "src/mpllayout/solver.py:solve"]}
{"id": "C101", "title": "Asking for a width and an aspect ratio: what Newton's method does from the default square", "statement": "For a figure asked to be a Box of width W > 0 with AspectRatio k > 0, solved from the default unit square: after the first iteration the width is exactly W and stays so, and the signed height goes through an explicit recursion h -> h (2 - k|h|/W) from h = W + 1 - k; the reported errors are the deviations of W/|h| from k. If 0 < k|W+1-k| < 2W the solve never fails and |h| tends quadratically to W/k. Three expectations are false although a box of height W/k satisfies every constraint: for k|W+1-k| > 3W the iterates move away, at least geometrically, and all errors stay above 2k/3; for k|W+1-k| = 2W (for example W = 6, k = 3) the third iteration divides by zero; for k > W + 1 with k(k-W-1) < 2W it converges to a figure of negative height, which is passed on to matplotlib.", "quantifier": "every W > 0, k > 0, all tolerances and iteration limits, every exact backend", "why_tests_cant": "an infinite family of inputs with chaotic or divergent behaviour for some of them", "anchors": ["src/mpllayout/constructions.py:AspectRatio", "src/mpllayout/constraints.py:AspectRatio", "src/mpllayout/constraints.py:Width", "src/mpllayout/constraints.py:Box", "src/mpllayout/solver.py:solve_newton", "src/mpllayout/primitives.py:Quadrilateral", "src/mpllayout/matplotlibutils.py:subplots"]}
{"id": "C102", "title": "A height and an aspect ratio are found exactly in two iterations", "statement": "For a figure asked to be a Box of height H > 0 with AspectRatio k > 0, solved from the default unit square with H + k <> 1: the second Newton iteration satisfies all constraints exactly (where asking for a width instead may fail, C101), further iterations keep it, and drawing sets the size (kH, H) if H + k > 1. That the width is always positive is false: for H + k < 1 the solve ends with a figure of width -kH, although a box of width kH satisfies the constraints.", "quantifier": "every H > 0, k > 0 with H + k <> 1, all tolerances that the default square does not already meet, all iteration limits from 2, every exact backend", "why_tests_cant": "an infinite family of inputs and backends", "anchors": ["src/mpllayout/constructions.py:AspectRatio", "src/mpllayout/constraints.py:AspectRatio", "src/mpllayout/constraints.py:Height", "src/mpllayout/constraints.py:Box", "src/mpllayout/solver.py:solve_newton", "src/mpllayout/primitives.py:Quadrilateral", "src/mpllayout/matplotlibutils.py:subplots"]}
{"id": "C103", "title": "The drawing scales with the unit of length", "statement": "Multiplying all coordinates of a tree by k > 0 gives the same figure k times the size: subplots and update_subplots issue the same matplotlib calls in the same order and succeed or fail alike, the figure's size in inches is multiplied by k, and all axes rectangles, label coordinates and tick sides are unchanged.", "quantifier": "every tree (solved or not, well formed or not), every k > 0, every figure key and list of axes keys", "why_tests_cant": "all trees and all factors", "anchors": ["src/mpllayout/matplotlibutils.py:subplots", "src/mpllayout/matplotlibutils.py:update_subplots", "src/mpllayout/matplotlibutils.py:find_axis_position", "src/mpllayout/matplotlibutils.py:rect_from_box", "src/mpllayout/matplotlibutils.py:width_and_height_from_quad"]}
{"id": "C104", "title": "Constraints do not depend on the unit of length", "statement": "Take a constraint of the library and primitives, multiply all coordinates and the parameters that are lengths (distances, widths, heights, margins, coordinates, thicknesses measured on a figure k times as large) by k > 0 and leave ratios, angles and flags alone: every residual is multiplied by a positive number and exceptions are the same, so the constraint holds before exactly if it holds after. A layout built by the same calls in the other unit succeeds in the same calls, holds the scaled tree, and is satisfied at a scaled tree exactly if the original is satisfied at the tree.", "quantifier": "every constraint of the library (margin arrays and grids of any size included), every k > 0, all primitives and parameters of the documented form; every layout history of such constraints with slash-free constraint keys, every tree of the layout's structure", "why_tests_cant": "all constraints, factors, parameters and histories", "anchors": ["src/mpllayout/constructions.py:ConstructionNode.__call__", "src/mpllayout/constraints.py:Grid", "src/mpllayout/constraints.py:Fix", "src/mpllayout/constraints.py:Width", "src/mpllayout/constraints.py:AspectRatio", "src/mpllayout/layout.py:Layout.add_constraint", "src/mpllayout/solver.py:assem_constraint_residual"]}
{"id": "C105", "title": "What add_constraint answers", "statement": "add_constraint(c, prim_keys, params, key) raises KeyError with the first primitive key that names nothing; otherwise RuntimeError if the primitives are not of the declared number and classes, or the parameters not of the declared number; otherwise KeyError with the key if it is taken or its parent is missing; in all these cases the layout's trees are unchanged. Otherwise it succeeds: the constraint, its primitive keys and its parameters are found under the key and nothing else changes. Without a key it never fails for lack of one: the constraint becomes the last child under its class name followed by a number not used before, even if the automatic keys were also chosen by hand.", "quantifier": "every layout (for the last three cases: after every history of shipped constraints, failed calls included), every constraint, list of keys, list of parameters, every key with or without slashes", "why_tests_cant": "all layouts, histories and arguments", "anchors": ["src/mpllayout/layout.py:Layout.add_constraint", "src/mpllayout/containers.py:ItemCounter.add_item_to_nodes", "src/mpllayout/constructions.py:ConstructionNode.validate_prims", "src/mpllayout/constructions.py:ConstructionNode.validate_params"]}
{"id": "C106", "title": "Solving in another unit of length gives the same figure", "statement": "Build a layout of constraints that are linear in the coordinates (boxes, margins, widths, heights, fixed points, distances along axes, ...), and build it again by the same calls in another unit of length: coordinates and lengths times k > 0. If the constraints can be satisfied, solving the second layout returns the solution of the first with every coordinate multiplied by k, whatever the tolerances, the iteration limits (at least one) and the two linear-algebra backends; the figure drawn from it is the same picture k times the size.", "quantifier": "every history of successful calls with affine shipped constraints under slash-free keys, every k > 0, all tolerances and iteration limits, every pair of exact backends", "why_tests_cant": "all histories, factors, tolerances and backends", "anchors": ["src/mpllayout/solver.py:solve", "src/mpllayout/solver.py:solve_newton", "src/mpllayout/layout.py:Layout.add_constraint", "src/mpllayout/matplotlibutils.py:update_subplots"]}
{"id": "C107", "title": "Constraints that do not mention the axes do not depend on how the figure is turned", "statement": "Turn all primitives by the same angle about the origin. Every construction made of lengths, distances along or across lines, ratios, orthogonality, parallelism and collinearity keeps its value (or its exception): Length, RelativeLength, Orthogonal, Parallel, Collinear, the point/line distances, AspectRatio, AlignRow and AlignColumn, rectilinear grids, axis label positions. Coincident, CoincidentLines, CoincidentOutwardFaces and the axis placements hold before turning exactly if they hold after. A layout of such constraints is satisfied at a tree exactly if it is satisfied at the turned tree. Claimed of Angle too, but refuted: turning the lines can change what Angle measures by a full turn.", "quantifier": "every construction expression over these constructions, every angle, all primitives made of points in the plane, all parameters, every history of calls (failing ones included)", "why_tests_cant": "all angles, primitives, expressions and histories", "anchors": ["src/mpllayout/constructions.py:Length", "src/mpllayout/constructions.py:PointToLineDistance", "src/mpllayout/constructions.py:Angle", "src/mpllayout/constraints.py:Orthogonal", "src/mpllayout/constraints.py:Collinear", "src/mpllayout/constraints.py:AspectRatio", "src/mpllayout/constraints.py:RectilinearGrid", "src/mpllayout/constraints.py:CoincidentOutwardFaces"]}
{"id": "C108", "title": "Stating what already holds changes nothing; stating more never brings the solution nearer", "statement": "Take two layouts with the same primitives, the second with all the constraints of the first and further ones, every constraint being affine. If the figure solved from the first satisfies every constraint of the second, solving the second gives exactly that figure: pinning down a value the solve already produced has no effect. Whenever the constraints of the second can be satisfied at all, its solution is at least as far from the starting figure as that of the first, and equally far only if it is the same figure.", "quantifier": "Every two shipped sequences of add_primitive/add_constraint calls reaching such layouts, every starting figure, all tolerances and iteration limits of at least one, and every backend that returns minimum-norm least-squares solutions.", "why_tests_cant": "A test pins one dimension of one figure to the value it came out with; that no other coordinate moves, for any set of constraints and any pinned quantity, depends on the solution being the nearest one, a statement about all other figures.", "anchors": ["src/mpllayout/solver.py:solve", "src/mpllayout/solver.py:solve_newton", "src/mpllayout/layout.py:Layout.add_constraint"]}
{"id": "C109", "title": "The solved figure depends on the starting figure without jumps; solving again changes nothing", "statement": "Take two layouts with the same constraints, every constraint being affine, whose primitives have the same structure but start from different numbers. The two solutions are no farther apart than the two starting figures are (in the Euclidean distance of all coordinates), so no coordinate of the solutions differs by more than that distance: a small change of the starting figure never makes the solved figure jump. If the second layout starts from the solution of the first, the solver returns these numbers again, also when the constraints contradict each other and the solution is only the best compromise. So it does when the second layout starts halfway, or anywhere else on the straight line through start and solution that is not beyond the solution.", "quantifier": "Every two histories of add_primitive/add_constraint calls (failing ones included) reaching such layouts, all starting numbers, all tolerances and iteration limits of at least one, and all backends returning minimum-norm least-squares solutions.", "why_tests_cant": "Stability is a statement about all pairs of starting figures: tests compare a few.", "anchors": ["src/mpllayout/solver.py:solve", "src/mpllayout/solver.py:solve_newton", "src/mpllayout/layout.py:Layout.add_prim"]}
{"id": "C110", "title": "A part of the figure that no constraint ties to the rest is solved on its own", "statement": "Call some of the arrays of a layout a part, such that every constraint refers either only to arrays of the part or to none of them. If the constraints are affine, solving the layout (exactly, or in the least-squares sense when they contradict each other) gives the arrays of the part exactly the numbers they get when only the constraints on the part had been added: adding a second, unconnected construction (with its own constraints) never disturbs the first.", "quantifier": "Every two shipped histories of add_primitive/add_constraint calls reaching such layouts, every choice of the part, all starting numbers, tolerances, iteration limits of at least one, and backends returning minimum-norm least-squares solutions.", "why_tests_cant": "Tests look at one combination of two figures; non-interference is about every pair of independent constructions.", "anchors": ["src/mpllayout/solver.py:solve", "src/mpllayout/solver.py:solve_newton", "src/mpllayout/solver.py:assem_constraint_residual", "src/mpllayout/layout.py:Layout.add_constraint"]}
{"id": "C111", "title": "Constraints that know neither the axes nor left and right hold for the mirror image too", "statement": "Mirror all primitives about the same line through the origin (about the x axis, the y axis, a diagonal, any direction). Every construction made of lengths, distances along lines, ratios and orthogonality keeps its value (or its exception): Length, RelativeLength, Orthogonal, PointOnLineDistance, RelativePointOnLineDistance, AspectRatio, axis label positions. PointToLineDistance, which is signed, changes its sign. Parallel, Collinear, AlignRow, AlignColumn, rectilinear grids, Coincident, CoincidentLines, CoincidentOutwardFaces and the axis placements hold before mirroring exactly if they hold after. A layout of such constraints is satisfied at a tree exactly if it is satisfied at the mirrored tree: the constraints cannot tell the two apart. Mirrored about the x or the y axis, Horizontal, Vertical and Box may be among them.", "quantifier": "every construction expression over these constructions, every mirror line through the origin, all primitives made of points in the plane, all parameters, every history of calls (failing ones included)", "why_tests_cant": "all mirror lines, primitives, expressions and histories", "anchors": ["src/mpllayout/constructions.py:Length", "src/mpllayout/constructions.py:PointToLineDistance", "src/mpllayout/constraints.py:Orthogonal", "src/mpllayout/constraints.py:Parallel", "src/mpllayout/constraints.py:Collinear", "src/mpllayout/constraints.py:AspectRatio", "src/mpllayout/constraints.py:RectilinearGrid", "src/mpllayout/constraints.py:CoincidentOutwardFaces"]}
