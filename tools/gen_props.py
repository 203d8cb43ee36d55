#!/usr/bin/env python3
"""Writes /verif/properties.jsonl (one property per line)."""
import json
P=[]
def p(id,title,statement,quantifier,why,anchors):
    P.append(dict(id=id,title=title,statement=statement,quantifier=quantifier,why_tests_cant=why,anchors=anchors))
CN="src/mpllayout/containers.py"; PR="src/mpllayout/primitives.py"; CO="src/mpllayout/constructions.py"
CR="src/mpllayout/constraints.py"; LA="src/mpllayout/layout.py"; SO="src/mpllayout/solver.py"
MU="src/mpllayout/matplotlibutils.py"; UI="src/mpllayout/ui.py"
p("C01","Slash-separated lookup walks the tree","`node['a/b/c']` returns exactly `node['a']['b']['c']` (the node reached by following one child key per '/'-separated component) and raises KeyError carrying the full key, for exactly those keys for which some component on the way is missing.","every tree, every key string (any number of components, including empty components)","trees and keys are unbounded; tests only look at a handful of two- or three-level keys",[f"{CN}:Node.get_child",f"{CN}:Node.__getitem__"])
p("C02","add_child has exactly its intended effect","After a successful `node.add_child(key, child)`, `node[key]` is `child`, the new key is the last child of its parent, and every lookup of a key that does not run through `key` returns what it returned before (same nodes up to the insertion itself, same sibling order).","every tree, every key, every child","frame conditions range over all other keys of an arbitrary tree",[f"{CN}:Node.add_child"])
p("C03","add_child refuses overwriting and missing parents without side effect","`add_child(key, child)` raises KeyError exactly when `key` already resolves to a node or the parent of `key` does not resolve, and then the tree is unchanged.","every tree, every key","needs all trees/keys and the absence of any effect",[f"{CN}:Node.add_child"])
p("C04","Item assignment replaces exactly the addressed node","For every key that does not end in '/' and is not of the form '/k': `node[key] = new` raises KeyError and changes nothing if `key` does not resolve; otherwise afterwards `node[key]` is `new`, sibling order is unchanged and all unrelated lookups are unchanged. (For the two excluded forms the claim is false: 'd/' stores a child with an empty key, '/d' replaces the top-level d.)","every tree, every key without those two forms, every replacement","frame conditions over arbitrary trees; corner-case keys (leading/trailing '/')",[f"{CN}:Node.__setitem__"])
p("C05","Membership agrees with lookup","For every key without a trailing '/': if the parent of the addressed place exists, `key in node` is True exactly when `node[key]` succeeds and False otherwise; if a parent is missing it raises KeyError. (For 'a/' it answers True although lookup fails.)","every tree and every key string without trailing slash","equivalence over all keys; corner cases such as missing parents or trailing '/'",[f"{CN}:Node.__contains__",f"{CN}:Node.get_child"])
p("C06","flatten/unflatten is lossless","`unflatten(flatten(k, node))` returns a node equal to `node` (types, values, child keys, child order) and an empty leftover; if further structures follow, they are returned untouched.","every tree, every root key, every trailing list of structures","arbitrary depth/branching",[f"{CN}:flatten",f"{CN}:unflatten",f"{CN}:iter_flat"])
p("C07","Depth-first enumeration gives every node one distinct, resolvable key","`iter_flat(root_key, node)` lists every node of the tree exactly once, parents before children and children in order. If no child key contains '/', the listed keys are pairwise distinct, stripping the root prefix from a listed key gives a key that looks up exactly the listed node, and every key that resolves is listed. (With '/' inside child keys the listed keys can clash.)","every tree, every root key","uniqueness and resolvability over arbitrary trees and key alphabets",[f"{CN}:iter_flat"])
p("C08","map and copy preserve shape","`map(f, node)` has the same child keys in the same order at every level and the value at each path is `f` of the value at that path; `copy()` has equal values everywhere; every node of the result is a plain Node, whatever the classes were before.","every tree, every function","arbitrary trees and functions",[f"{CN}:map",f"{CN}:Node.copy"])
p("C09","accumulate totals subtrees","`accumulate(fun, node, initial)` returns a tree of the same shape in which every node's value is `initial` combined with all values of the corresponding subtree: with addition and initial 0 their sum; for any associative operation the combination in listing order; the initial value enters once per node.","every tree, every associative operation, every initial value","arbitrary trees",[f"{CN}:accumulate"])
p("C10","node_height is the longest downward path","`node.node_height()` is the length of a longest chain of child keys that resolves from the node; 0 exactly for childless nodes.","every tree","arbitrary trees",[f"{CN}:Node.node_height"])
p("C11","Automatic constraint keys always terminate and are fresh","Whatever keys already exist in the given trees and whatever the counter's history, generating an automatic key terminates and returns a key that is in none of the trees; two automatic keys issued one after the other for the same collection never clash once added.","every counter state, every finite collection of trees, every category name without '/'","termination of an unbounded while loop and freshness for arbitrary histories",[f"{CN}:ItemCounter.add_item",f"{CN}:ItemCounter.add_item_until_valid",f"{CN}:ItemCounter.add_item_to_nodes"])
p("C12","Polygons are closed loops","A polygon built from n points has n lines 'Line0'..'Line{n-1}', line i runs from point i to point (i+1) mod n, and the end point of each line is the same object as the start point of the next.","every n and every list of points","every n",[f"{PR}:Polygon.init_children"])
p("C13","Constructors enforce primitive signatures","Every primitive returned by a constructor has the declared parameter-vector size and child types. The base constructor accepts exactly the arguments that conform to the signature; Point accepts exactly two-entry vectors, Polygon exactly Points; Line takes the first two of the given Points and raises for fewer or others (surplus points are silently dropped). isinstance relations between the classes are those of the class statements.","every class, every value vector and list of argument primitives","arbitrary arguments",[f"{PR}:PrimitiveNode.__init__",f"{PR}:validate_prims"])
p("C14","A quadrilateral takes exactly four vertices","`Quadrilateral(children=points)` succeeds exactly for four points and otherwise raises ValueError.","every list of points","every length",[f"{PR}:Quadrilateral"])
p("C15","Axes children follow the axis flags","`Axes(xaxis=, yaxis=, twinx=, twiny=)` has children Frame, then XAxis/XAxisLabel, YAxis/YAxisLabel, then TwinXAxis/..., TwinYAxis/... exactly as requested (twins only with their primary axis). Explicitly supplied prims are accepted exactly when the first of them, as many as the flags request, have the requested classes in order; fewer raise, and surplus prims are ignored.","all flag combinations, all explicitly supplied prims","combination space and arbitrary supplied tuples",[f"{PR}:Axes.init_children",f"{PR}:Axes.default_prims"])
p("C16","Unique-value extraction is faithful","For any primitive tree, every node key is mapped to an index of the value list that holds that node's own parameter vector; two nodes get the same index exactly when they hold the same array object; every value in the list belongs to some node and appears once.","every primitive tree with any sharing pattern","arbitrary sharing patterns",[f"{PR}:filter_unique_values_from_prim"])
p("C17","Rebuilding a primitive tree from unique values","Rebuilding with the extracted values gives back an equal tree; rebuilding with new values gives a tree with the same keys and types where each node holds the new value at its index, so nodes that shared a vector still share it.","every primitive tree, every list of replacement values","arbitrary trees and sharing",[f"{PR}:build_prim_from_unique_values"])
p("C18","Degrees of freedom of a polygon","The unknowns extracted from a polygon on n distinct points are exactly its n points' coordinates, 2n numbers, not 4n.","every n","every n",[f"{PR}:filter_unique_values_from_prim",f"{PR}:Polygon"])
p("C19","Packing and unpacking the global parameter vector","Concatenating the unique values and slicing the result at the cumulative sizes returns the original values, and any vector of that total length is split into pieces whose concatenation is that vector and whose sizes are the declared ones.","every list of vectors","arbitrary numbers and sizes of vectors",[f"{SO}:solve_newton",f"{SO}:solve_minimize"])
p("C20","Calling a construction evaluates its whole tree","`cons(prims, *params)` returns its own output followed by the outputs of its child constructions, depth-first, each child evaluated on the primitives selected by its 'arg{i}/path' keys and on the parameters its parent derives for it.","every construction tree, primitives and parameters","arbitrary trees",[f"{CO}:ConstructionNode.__call__",f"{CO}:ConstructionNode.assem_from_tree",f"{CO}:ConstructionNode.root_prim_keys",f"{CO}:ConstructionNode.root_params",f"{CO}:ConstructionNode.child_prim_keys"])
p("C21","Declared output sizes are the actual sizes","Every shipped construction and constraint except CoincidentLines and the constraints made of it (CoincidentOutwardFaces, PositionXAxis, PositionYAxis) returns, at each node, exactly as many numbers as its signature declares; CoincidentLines declares 2 and always returns 4.","every such construction, arrays and grids of every size, all valid primitives and parameters of the documented form","all inputs",[f"{CO}:ConstructionNode.validate_value",f"{CR}:CoincidentLines"])
p("C22","Sums exist exactly for matching constructions","`a + b` is accepted exactly when a and b have the same child keys at every level and the same declared size at every node; otherwise it raises AssertionError.","every pair of construction trees","arbitrary pairs of trees",[f"{CO}:transform_sum"])
p("C23","Sums add node by node","`a + b` is built node by node: at each node the outputs of a on the first arguments and of b on the remaining ones are added, and its parts are the sums of the parts, with the primitive keys of both summands' parts read against the joined argument list. Hence `(a + b)(prims_a + prims_b, *params_a, *params_b) == a(prims_a, *params_a) + b(prims_b, *params_b)` whenever, at every node, a takes no primitives or b's parts take none; otherwise it fails (Width + Width evaluates the first quadrilateral twice).","every pair of summable constructions, all inputs","arbitrary trees and inputs",[f"{CO}:transform_sum",f"{CO}:concatenate_construction_inputs"])
p("C24","Scalar multiples and negation","`(c * a)(prims, *params)`, `(-a)(...)` and `(Scalar() * a)(prims, *params, c)` are c (or -1) times `a(prims, *params)`, entry by entry at every node.","every construction, scalar, inputs","arbitrary trees and inputs",[f"{CO}:transform_scalar_mul",f"{CO}:ConstructionNode.__neg__"])
p("C25","Scalar division","`(a / c)(prims, *params)` and `(a / Scalar())(prims, *params, c)` are `a(prims, *params)` divided by c, for non-zero c.","every construction, non-zero scalar, inputs","arbitrary trees and inputs",[f"{CO}:transform_scalar_div"])
p("C26","Scalar powers","`(a ** c)(prims, *params)` is `a(prims, *params)` raised entry by entry to c.","every construction, scalar, inputs","arbitrary trees and inputs",[f"{CO}:transform_scalar_pow"])
p("C27","A constraint is construction minus target","For every construction at most one level deep - every shipped one is - and every number target, the derived constraint returns `construction(prims, *params) - value`, one residual per output, so it vanishes exactly when the construction has the target value. For array targets of the length of the value the same holds for single-node constructions; compound constructions accept arrays of at most one entry and raise for longer ones. Array targets of another length: a single-node construction with one value is compared with every entry, an array of one entry is the target of every value, any other mismatch raises. (For deeper trees the residuals can silently vanish.)","every construction of depth at most one, inputs, target number or array","arbitrary construction trees",[f"{CO}:transform_constraint",f"{CO}:Vector"])
p("C28","Mapping a construction over primitives","`transform_map(cons, N prims)` evaluates cons once per primitive n < N-M on (prims[n], *prims[N-M:]) with the n-th group of parameters, concatenated in order, M being the number of extra primitives cons takes.","every construction, every N, inputs","every N",[f"{CO}:transform_map"])
p("C29","Partial application fixes the trailing parameters","`transform_partial(cons, *frozen)(prims, *rest) == cons(prims, *rest, *frozen)` for at least one frozen parameter. Freezing none gives a construction that takes no parameters, which equals cons exactly when that takes none, and otherwise raises TypeError for every call with parameters.","every construction, every split of the parameters","arbitrary numbers of parameters",[f"{CO}:transform_partial"])
p("C30","Chunking partitions","`chunk(array, sizes)` yields len(sizes) pieces that concatenate to the array and have the requested sizes whenever the sizes add up to the array length.","every array and list of sizes","arbitrary sizes",[f"{CO}:chunk"])
p("C31","Inputs are validated before evaluation","Calling a construction with the wrong number of primitives, a primitive of a wrong type, or the wrong number of parameters raises TypeError; with valid inputs no validation error is raised.","every construction and inputs","arbitrary inputs",[f"{CO}:ConstructionNode.validate_prims",f"{CO}:ConstructionNode.validate_params"])
p("C32","What construction constructors reject","Building a construction raises ValueError exactly when the number of child-primitive key tuples differs from the number of children or a child key is the empty string. (The per-child comparison of key-tuple length and signature written in the code never fires.)","every value/children combination","arbitrary combinations",[f"{CO}:ConstructionNode.__init__"])
p("C33","Which operators accept plain numbers","`x * cons` and, unless cons is a Scalar, `cons * x` work for every plain number x; `cons + x`, `x + cons` and `Scalar * x` always raise AttributeError, contrary to their annotations.","every construction and number","all operand kinds",[f"{CO}:ConstructionNode.__add__",f"{CO}:ConstructionNode.__radd__",f"{CO}:ConstructionNode.__mul__",f"{CO}:ConstructionNode.__rmul__"])
p("C34","Point constraints","Fix vanishes iff the point is at the target; Coincident iff the points are equal; XDistance/YDistance/DirectedDistance iff the signed x / y / projected distance from the first to the second point equals the target; the residual is the signed error.","all points, directions and targets","all reals",[f"{CR}:Fix",f"{CR}:Coincident",f"{CR}:DirectedDistance",f"{CR}:XDistance",f"{CR}:YDistance"])
p("C35","Single-line constraints","Length, XLength, YLength, DirectedLength vanish iff the (signed) length equals the target; Horizontal/Vertical iff both end points have the same y / x.","all lines and targets","all reals",[f"{CR}:Length",f"{CR}:XLength",f"{CR}:YLength",f"{CR}:DirectedLength",f"{CR}:Horizontal",f"{CR}:Vertical"])
p("C36","Two-line constraints","RelativeLength vanishes iff |l0| = value*|l1|; MidpointX/YDistance iff the signed midpoint distance from the first to the second equals the target; Orthogonal iff the direction vectors are perpendicular; Parallel iff they are linearly dependent.","all pairs of lines, all targets","all reals",[f"{CR}:RelativeLength",f"{CR}:MidpointXDistance",f"{CR}:MidpointYDistance",f"{CR}:Orthogonal",f"{CR}:Parallel"])
p("C37","Angle between lines","The Angle construction returns an angle that turns the first line's direction into the second's, in (-2 pi, 2 pi); the derived constraint vanishes only if the second line is at the target angle. (The value need not lie in (-pi, pi]: from 135 to -135 degrees it is -270.)","all pairs of non-degenerate lines","all reals incl. the branch cut",[f"{CO}:Angle"])
p("C38","Collinear","Collinear vanishes iff both end points of the second line lie on the infinite line through the first (first line non-degenerate).","all pairs of lines","all reals",[f"{CR}:Collinear"])
p("C39","CoincidentLines","CoincidentLines vanishes iff the lines have the same end points, start-to-start for reverse=False and start-to-end for reverse=True.","all pairs of lines","all reals",[f"{CR}:CoincidentLines"])
p("C40","Point/line distances","PointOnLineDistance is the signed projection along the line from its start (from its end towards the start if reversed); PointToLineDistance is the signed distance to the left (right if reversed) of the line; RelativePointOnLineDistance is the projection divided by the length; reversing complements/negates them.","all points and non-degenerate lines","all reals",[f"{CO}:PointOnLineDistance",f"{CO}:PointToLineDistance",f"{CO}:RelativePointOnLineDistance"])
p("C41","Box","Box vanishes on a quadrilateral iff it is an axis-aligned rectangle with Line0/Line2 horizontal and Line1/Line3 vertical.","all quadrilaterals","all reals",[f"{CR}:Box"])
p("C42","Width, Height, AspectRatio","Width/Height vanish iff the signed bottom-line x extent / right-line y extent equals the target; on a Box quadrilateral this is right minus left / top minus bottom; AspectRatio iff |bottom| = value*|side|.","all quadrilaterals and targets","all reals",[f"{CR}:Width",f"{CR}:Height",f"{CR}:AspectRatio"])
p("C43","Margins","On Box quadrilaterals, InnerMargin/OuterMargin of each side vanish iff the documented signed gap between the respective sides equals the target.","all pairs of boxes, four sides, inner and outer, all targets","all reals and sides",[f"{CR}:OuterMargin",f"{CR}:InnerMargin",f"{CO}:Margin"])
p("C44","OuterMarginArray","For N boxes and N-1 margins, OuterMarginArray vanishes iff each consecutive pair has its margin.","every N, all boxes","every N",[f"{CR}:OuterMarginArray"])
p("C45","Rectilinear grids align","If RectilinearGrid vanishes on an r x c arrangement of non-degenerate boxes then all boxes in a row share bottom and top, and all boxes in a column share left and right; conversely such arrangements have zero residual.","every shape (r, c), all boxes","every shape",[f"{CR}:RectilinearGrid",f"{CR}:Align"])
p("C46","Grid dimensions","If Grid vanishes then, besides alignment, column j's width is col_widths[j-1] times column 0's, row i's height is row_heights[i-1] times row 0's, and the gaps between consecutive columns / rows are the given margins; conversely such arrangements have zero residual.","every shape, boxes and parameter arrays","every shape",[f"{CR}:Grid"])
p("C47","Multi-index flattening","For shapes of at most two dimensions, all that the grids use, `idx_1d` maps the multi-indices of the shape one-to-one onto 0..size-1 in row-major order. (With three dimensions it is not one-to-one.)","every shape with at most two dimensions and every multi-index","every shape",[f"{CR}:idx_1d"])
p("C48","Axis placement","PositionXAxis/PositionYAxis vanish iff the axis quadrilateral's facing side coincides with the chosen frame side, and for twins the twin axis lies on the opposite side; opposite_side is an involution without fixed points.","all axes geometries, sides, twin flags","all reals",[f"{CR}:PositionAxis",f"{CR}:CoincidentOutwardFaces",f"{CO}:opposite_side"])
p("C49","Axis label placement","PositionXAxisLabel/PositionYAxisLabel vanish iff the (twin) label's projection on the bottom/right frame line is the requested fraction of that line.","all axes geometries, twin flag, fractions","all reals",[f"{CR}:PositionAxisLabel"])
p("C50","Measuring an axis leaves it unchanged","Measuring an axis thickness leaves the label's visibility as it was and succeeds if the axis has no extent or its tick position is one of the four sides; for any other tick position it raises ValueError and leaves the label hidden.","every axis state, every tick position","exceptional paths",[f"{CR}:get_axis_thickness"])
p("C51","Constraints, primitive keys and parameters stay in lockstep","After any sequence of add_prim/add_prims/add_constraint calls, some of which may fail, with constraints that derive parameters for all their parts - in particular all shipped ones with parameters of the documented form - the constraint tree, the primitive-key tree and the parameter tree of a layout have the same keys in the same order at every level, so flattened lists correspond entry by entry. (A Grid without the documented margins breaks this.)","every such call history","arbitrary histories",[f"{LA}:Layout.add_constraint",f"{LA}:Layout.flat_constraints"])
p("C52","A rejected add_constraint leaves the layout unchanged","If add_constraint raises because its primitives or parameters are rejected, or for any reason when the constraint's key and parameter trees can be built (all shipped constraints with documented parameters), the layout's primitives, constraints, keys and parameters are exactly as before; only the counter for generated keys may have advanced. (A Grid given numbers instead of arrays raises and leaves its constraint and keys behind.)","every layout reached, constraint, keys, parameters","exception paths",[f"{LA}:Layout.add_constraint"])
p("C53","The layout residual is the concatenation of its constraints' residuals","Evaluating a layout's flattened constraints on its primitives gives, in insertion order, exactly the values of `constraint(prims, *params)` for each added constraint (added under keys without '/', so that insertion order is tree order); with no constraint it raises ValueError.","every layout history","arbitrary histories and compound constraints",[f"{LA}:Layout.flat_constraints",f"{SO}:assem_constraint_residual"])
p("C54","Updating matplotlib-dependent parameters touches nothing else","`update_layout_constraints` returns a layout with the same primitives and constraints in which exactly the axis-thickness constraints' parameters are replaced by those derived from the given axes; all other parameters and the tree shape are unchanged; the input layout is not modified.","every layout","arbitrary layouts",[f"{LA}:update_layout_constraints",f"{LA}:update_root_param"])
p("C55","Wrong-length nested parameters","A Grid given too few widths or heights raises; entries beyond one per additional column/row in any of the four arrays have no effect. (Too few margins are silently accepted.)","every shape and parameter arrays","malformed inputs of any size",[f"{CR}:Grid",f"{CR}:OuterMarginArray",f"{CO}:ConstructionNode.root_params"])
p("C56","add_prim(s) store primitives under their keys","After add_prim/add_prims, each key resolves to its primitive, duplicates raise KeyError, and a failing add_prims keeps exactly the primitives before the failing key.","every layout, every dictionary of primitives","arbitrary histories",[f"{LA}:Layout.add_prim",f"{LA}:Layout.add_prims"])
p("C57","The Newton solver stops and reports one error per iteration","solve performs at most max_iter iterations; abs_errs and rel_errs have one entry per iteration; entry k is the residual norm of iterate k (and its ratio to entry 0); it stops exactly at the first iteration meeting a tolerance.","every layout, tolerances, iteration limits, linear-algebra backend","arbitrary iterations",[f"{SO}:solve_newton"])
p("C58","The solved tree has the layout's structure","The tree returned by solve has the same keys, types and vector sizes as the layout's primitives, and primitives that shared a point still do; with max_iter=0 it is unchanged.","every layout, every backend","arbitrary trees",[f"{SO}:solve_newton",f"{SO}:solve_minimize"])
p("C59","What the reported Newton error means","The last reported absolute error is the 2-norm of the constraints on the tree before the last correction, and the returned primitives are that tree plus the correction. (So a reported error within abs_tol does not imply that the returned primitives are within abs_tol: there is a layout where every exact Newton backend reports an error below 2 and returns primitives with error above 5.)","every layout and backend","all residual functions",[f"{SO}:solve_newton"])
p("C60","Affine layouts are solved in one Newton step","If all constraints are affine (Box, Fix, Coincident, distances, X/Y lengths, Width, Height, margins, axis placement, ...) and jointly satisfiable, solve with max_iter >= 1 returns primitives satisfying every constraint exactly (exact arithmetic).","every such layout","arbitrary layouts",[f"{SO}:solve_newton",f"{CR}:Box"])
p("C61","Solver method dispatch","solve runs newton or minimize as named and raises ValueError for any other method without touching the layout.","every method string","all strings",[f"{SO}:solve"])
p("C62","What the minimize history means","For method 'minimize', abs_errs[k] is the sum of squares of the constraints at intermediate result k, rel_errs[k] its ratio to abs_errs[0], the run ends at the first entry below a tolerance and the returned tree is the last intermediate result. (Unlike for 'newton' these are not 2-norms and not relative to the initial error.)","every sequence of intermediate results","arbitrary optimisation runs",[f"{SO}:solve_minimize",f"{SO}:solve"])
p("C63","Figure and axes geometry transfer","subplots sets the figure size to the figure box's width and height and places each axes so that its rectangle, scaled by the figure size and shifted by the figure origin, is exactly the solved frame box.","all solved trees with a non-degenerate figure","all reals",[f"{MU}:update_subplots",f"{MU}:rect_from_box",f"{MU}:width_and_height_from_quad"])
p("C64","Axis labels are placed at their solved points","There is one label-position call per label present and none else; the coordinates handed to matplotlib, scaled by the figure size, are the label point measured from the layout origin, hence the right place if the figure's lower-left corner is at the origin. (Otherwise the label is shifted by that corner.)","all solved trees","all reals",[f"{MU}:update_subplots"])
p("C65","Tick side follows the solved axis","If an axis quadrilateral of positive size is placed exactly on one side of a frame of positive size, the tick position handed to matplotlib is that side.","all frames, axes, sides","all reals",[f"{MU}:find_axis_position"])
p("C66","subplots creates one matplotlib axes per axes key","Without explicit keys, exactly the top-level primitives whose key contains 'Axes' get a matplotlib axes, in order; with explicit keys exactly those.","every tree and key list","all key strings",[f"{MU}:subplots"])
p("C67","Primitive plots have valid opacity","Every primitive drawn by plot_prims has opacity in [0.2, 1], top-level primitives 1.","every tree","arbitrary depth",[f"{UI}:plot_prim"])
p("C68","Label rotation","rotation_from_line is in [0, 360] degrees and is the angle of the line's direction if the line does not point downwards or is vertical; for the other lines it is the angle of the direction mirrored at the vertical axis.","all non-degenerate lines","all reals",[f"{UI}:rotation_from_line"])
p("C69","Axis thickness constraint","XAxisThickness (YAxisThickness) vanishes iff the axis quadrilateral's height (width) is the distance, in inches, by which the axis decorations without the label reach beyond the axes rectangle on the tick side; 0 if there are none or no axis is given.","all quadrilaterals, all axis states with a tick side","all reals and axis states",[f"{CR}:AxisThickness",f"{CR}:get_axis_thickness"])
p("C70","Shipped constraints hand each part what it declares","Applied to primitives of its declared classes (as built by the constructors) and parameters of the documented form, every shipped constraint hands each of its child constraints, at every depth, primitives of the classes the child declares and exactly as many parameters as it declares.","every shipped constraint, every grid shape and array length, all primitives","dozens of compound constraints with string keys, unbounded grid shapes",[f"{CR}",f"{CO}:ConstructionNode.child_prim_keys"])
p("C71","Layout trees stay well-formed","After any sequence of add_prim, add_prims, add_constraint and update calls, including ones that raise, each of the layout's trees has distinct slash-free keys at every level, every key reported by iteration resolves to that node and vice versa, and the layout holds only arrays of primitives that were handed in.","every call history","arbitrary histories with failures",[f"{LA}:Layout",f"{CN}:Node.add_child"])
p("C72","Constructors allocate fresh arrays","Every primitive constructor returns a well-formed tree whose arrays are either arrays of its arguments or freshly allocated; two primitives built from default arguments share no array (so solving one does not move the other).","every argument, every constructor","all argument forms",[f"{PR}:Primitive.__init__",f"{PR}:Axes"])
p("C73","Plots show every primitive once","plot_prims draws every primitive of the tree exactly once, in depth-first order (so parents before children), except the end points of lines and lines of length zero, and raises nothing: a point at its coordinates, a line between its end points with its label at the midpoint and turned along the line, a polygon with any number of vertices by these vertices in order with its label at the first; the label is one dot per level and the last key component.","every tree","arbitrary depth and branching",[f"{UI}:plot_prims",f"{UI}:plot_prim",f"{UI}:plot_line",f"{UI}:plot_polygon"])
p("C74","Default and given arguments of primitive constructors","Point() is at (0,0); Line() runs from (0,0) to (0,1); Quadrilateral() is the unit square, its four sides listed anticlockwise from the lower one, each starting where the previous one ends; Polygon(size=n) is the regular n-gon on the unit circle whose k-th side runs from angle 2*pi*k/n to 2*pi*(k+1)/n, closed, and Polygon(size=0) raises; the boxes of a default Axes are unit squares and its labels are at the origin. Arguments that are given are used unchanged as the children, under the documented keys.","every constructor and every polygon size","the number of sides is unbounded",[f"{PR}:Point",f"{PR}:Line",f"{PR}:Polygon",f"{PR}:Quadrilateral",f"{PR}:Axes"])
p("C75","Changes reach exactly the holders of the changed object","Nodes are shared objects: add_child and item assignment change the children of exactly one object, so every tree that holds that object shows the change at every place where it occurs, and every tree that does not hold it is untouched; a rejected call changes nothing; adding a node somewhere below itself is accepted and leaves a structure that is no longer a tree.","every collection of nodes with arbitrary sharing, every key","arbitrary sharing patterns",[f"{CN}:Node.add_child",f"{CN}:Node.__setitem__",f"{CN}:Node.get_child"])
p("C76","copy() is independent of the original","`node.copy()` returns a node showing the same tree, all of whose nodes are new objects, and changes no existing object; later changes of the original's nodes do not show in the copy and vice versa (although the values themselves are shared).","every node, every sharing pattern, every later change","arbitrary trees and sharing patterns",[f"{CN}:Node.copy",f"{CN}:unflatten",f"{CN}:iter_flat"])
p("C77","What an updated layout shares with the original","update_layout_constraints changes no existing object; the layout it returns holds the same primitive, constraint and key objects as the original but only new parameter nodes, so no later call on the returned layout ever changes the original's parameters. (But constraints added to the returned layout do appear in the original, without parameters; adding a constraint to the original afterwards then pairs the first constraint with the second one's parameters.)","every layout, every sharing of its objects, every later call history","arbitrary sharing and histories",[f"{LA}:update_layout_constraints",f"{LA}:update_root_param",f"{LA}:Layout.__init__"])
p("C78","Layout calls use the objects handed in and modify nothing else","For any sequence of add_prim/add_prims/add_constraint calls with slash-free keys, some of which may fail and whose arguments may share nodes with each other and with other layouts, every outcome and every resulting tree depends only on the trees the arguments show, and of the objects existing before only the layout's four root nodes are changed. A key below a primitive added before puts the new primitive into that primitive object itself, visible to everyone holding it.","every call history, every sharing pattern","arbitrary sharing and histories",[f"{LA}:Layout.add_prim",f"{LA}:Layout.add_prims",f"{LA}:Layout.add_constraint",f"{LA}:Layout.flat_constraints"])
p("C79","Build, solve, draw","If a layout of shipped constraints has been solved up to a residual of e, every constraint that was added is satisfied up to e on the primitives its keys name; if it asked for a figure of w by h inches and for axes with given inner margins, then subplots makes a figure of this size whose axes have these margins in inches, all up to 2*e (exactly if e = 0). For the README program this goes through for every figure size other than 0 and all margins: every call succeeds, one Newton step solves the layout, and the figure drawn has that size and the axes rectangle (left/w, bottom/h, (w-left-right)/w, (h-bottom-top)/h).","every such history, every number of axes, all sizes, margins and tolerances, every solver output","arbitrary histories, any number of axes, all reals",[f"{LA}:Layout.add_constraint",f"{SO}:solve",f"{MU}:subplots",f"{CR}:InnerMargin","README.md"])
p("C80","Values depend on the content of the primitives","The value of any construction made from the shipped ones with partial, map, constraint, +, -, *, /, ** and the compound classes depends on the classes, keys and numbers of the primitives handed in only: primitives with the same content give the same value or the same error, whichever array objects hold the numbers and however these are shared. The same holds for the residual of a layout.","every such expression of any size, every list of primitives and parameters, every layout history","unbounded nesting of operators",[f"{CO}",f"{CR}",f"{SO}:assem_constraint_residual"])
p("C81","The number of equations does not depend on the numbers","The number of entries of the value of any such construction, and the number of entries of a layout's residual, is the same for any two trees of primitives with the same classes, keys and array sizes, so the Jacobian keeps its shape throughout a solve.","every such expression of any size, all numbers, every layout history","unbounded nesting of operators, all reals",[f"{CO}",f"{CR}",f"{SO}:solve_newton"])
p("C82","A satisfied layout is left alone","If all constraints of a layout (of any expressions over the shipped constructions) are satisfied, solve returns primitives with the numbers unchanged after one iteration, with error 0, whatever the tolerances and iteration limit (exact arithmetic).","every layout history, every backend that differentiates and solves least-squares problems exactly","arbitrary layouts and backends",[f"{SO}:solve_newton"])
p("C83","Over- and underdetermined affine layouts","For affine constraints, satisfiable or not, solve with max_iter >= 1 returns primitives that minimise the sum of squares of all constraints over all placements of the primitives, and among the minimisers the one closest to the initial placement (in the numbers of all arrays); no other placement does.","every layout of affine constraints, every backend that differentiates and solves least-squares problems exactly","arbitrary layouts",[f"{SO}:solve_newton"])
p("C84","Primitives no constraint refers to stay put","A primitive whose array occurs nowhere in the primitives that the constraints' keys name has exactly the same numbers after solve, for linear and nonlinear constraints alike.","every layout of shipped constraints, every such primitive, every exact backend","arbitrary layouts",[f"{SO}:solve_newton"])
p("C85","The order of constraints does not matter","Two layouts with the same primitives and the same constraints, added in different orders and under different keys, are solved alike: one solve succeeds iff the other does, with the same primitives and the same reported errors (exact arithmetic).","every pair of such layouts, every exact backend","all orders, arbitrary layouts",[f"{SO}:solve_newton",f"{LA}:Layout.add_constraint"])
p("C86","Solving depends on the solutions of the constraints only","Two layouts of affine constraints with the same primitives whose constraints are satisfied by the same placements (by at least one) are solved to the same primitives, whatever their constraints, tolerances, iteration limits (at least 1) and backends. In particular stating the same constraints several times, or in another order, changes nothing (exact arithmetic).","every pair of such layouts, every exact backend","arbitrary layouts",[f"{SO}:solve_newton",f"{LA}:Layout.add_constraint"])
p("C87","Newton steps go downhill and stop only at stationary points","Where the residual of a layout (of any expressions over the shipped constructions) is differentiable, a single Newton iteration moves the primitives in a direction in which the sum of squares of the constraints has a negative slope, or does not move them at all; it does not move them exactly if the sum of squares is stationary, and then no number of iterations does, even if the constraints are violated (exact arithmetic).","every layout history, every starting point where the residual is differentiable, every exact backend","nonlinear residuals, arbitrary layouts",[f"{SO}:solve_newton"])
p("C88","Constraints other than Fix do not depend on where the figure is","Moving all primitives by the same vector changes neither the value nor the errors of any construction made from the shipped ones other than coordinates and midpoints, in particular of no shipped constraint except Fix. Hence adding moved primitives gives the moved layout (with the same errors), solving it returns the moved primitives and the same reported errors; and without Fix solve does not move the centroid of the distinct points (exact arithmetic; for nonlinear constraints if the residual is differentiable at the iterates).","every such expression and call history, every displacement, every exact backend","unbounded nesting of operators, arbitrary layouts, all reals",[f"{CO}",f"{CR}",f"{SO}:solve_newton",f"{LA}:Layout.add_prim"])
p("C89","The 'minimize' method: order, position, descent, bystanders, centroid","solve(method='minimize') returns the same primitives and errors whatever the order and keys under which the constraints were added, if the optimiser depends on the objective through its values; it follows a translation of all primitives when no constraint is Fix, if the optimiser does not depend on the origin; the sum of squares at the returned primitives is not larger than at the start, if no intermediate result of the optimiser is; and it leaves unconstrained positions, and (without Fix) the centroid of the distinct points, alone, if the optimiser moves along gradients only.","every layout history, tolerance, iteration limit, displacement, and every optimiser with the stated property","arbitrary layouts and optimisers",[f"{SO}:solve_minimize"])
p("C90","Children by position and by slice","`node[i]` for an integer is the i-th child in insertion order, counted from the end if negative, and IndexError outside -len..len-1; it is the child found under the i-th key. `node[a:b:c]` lists exactly the children at the positions the slice denotes (any integers or absent bounds, any non-zero step, step 0 is ValueError): `node[:]` is all, `node[::-1]` all reversed, `node[:i]` followed by `node[i:]` is all for every integer i. Other keys raise TypeError. A child added under a plain key becomes the last position and moves no other.","every tree, every integer index, all slice bounds and steps","unbounded integers and child counts",[f"{CN}:Node.__getitem__"])
p("C91","Nodes are jax pytrees","Flattening a node or primitive with jax and unflattening it gives a tree with the same class and value under every key path; jax's tree_map applies the function to the value of every node and nothing else. There is one leaf per node, and a wrong number of leaves is ValueError. Two trees have equal tree definitions exactly if they have the same classes at the same key paths. The order of the children is not kept: it comes back as the order of sorted keys (so a tree is returned unchanged exactly if its keys are in that order at every level): the eleven sides of a polygon come back with Line10 after Line1.","every tree, every function on values, every list of leaves","unbounded trees and keys",[f"{CN}:_make_flatten_unflatten",f"{PR}:_PrimitiveClasses"])
p("C92","A figure with a grid of axes","Take a layout whose figure has a given width and height, with r x c axes whose frames are boxes, arranged with given column-width ratios, row-height ratios, column gaps and row gaps (by one Grid, or by a RectilinearGrid and relative lengths and outer margins along the first row and column), and an inner margin on each side, asked of any axes on that border. If all constraints hold (and the axes come out with positive sizes), the figure drawn has this size in inches, and the axes (i, j) is where dividing the space left over by margins and gaps in the given ratios puts it, rows counted from the top.","every r, c >= 1, all ratios, gaps, margins and sizes, every layout history with these requests, every tree satisfying it","unbounded grids, all reals",[f"{CR}:Grid",f"{CR}:RectilinearGrid",f"{CR}:RelativeLength",f"{CR}:OuterMargin",f"{CR}:InnerMargin",f"{MU}:subplots"])
p("C93","What the text of a node tells","If class names, values and keys print without parentheses and commas, two nodes have the same str()/repr() exactly if they have the same shape, the same keys in the same order, the same class names and the same texts of values at every level (so equal texts mean equal trees when names and value texts tell classes and values apart). A copy prints like the original only if every class of the original is called Node. Keys with commas can make different trees print alike, and the text does not show which primitives share an array.","every pair of trees, every class naming and printing of values","unbounded trees and texts",[f"{CN}:Node.__repr__",f"{CN}:Node.__str__"])
p("C94","Figures of primitives and their colours","figure_prims sets up size, tick locators, aspect, grid and axis labels first and then draws exactly what plot_prims draws (it fails exactly if that fails); everything belonging to the i-th of the n primitives of the root is drawn in the colour map's colour for i/n: different numbers in [0, 1), increasing with i. With a map of 256 different colours, up to 256 primitives get different colours; with more, the first two share one.","every tree, every colour map, every number of primitives","unbounded trees",[f"{UI}:figure_prims",f"{UI}:plot_prims"])
p("C95","Making room for tick labels","update_layout_constraints(layout, axs) gives a layout that asks for exactly what it asked before, except that every x (y) axis thickness constraint on K/... now asks for the thickness of the drawn x (y) axis of axs[K]; it succeeds if every thickness constraint names axes in axs that can be measured. If all constraints of the updated layout hold, the figure drawn by update_subplots has the asked size; the frame of each axes keeps the asked clearance to the figure edges, enlarged by the measured thickness on the side of each axis; ticks are on the asked sides; the axis labels are the asked distance outside the tick labels, at the asked fraction of the frame.","every layout history of shipped constraints with these requests, all drawn axes, sides, clearances, paddings and sizes, every tree satisfying the updated layout","unbounded histories, all reals, all measured bounding boxes",[f"{LA}:update_layout_constraints",f"{CR}:XAxisThickness",f"{CR}:YAxisThickness",f"{MU}:update_subplots"])
p("C96","What constructions measure","Called directly, Coordinate returns the point, DirectedDistance/XDistance/YDistance the projections of the vector from the first point to the second, LineVector/Length/DirectedLength/XLength/YLength/Midpoint the vector, length, projections and midpoint of the line, UnitLineVector a vector of length one along it, MidpointDirectedDistance/XDistance/YDistance the projections between midpoints, Width/Height/AspectRatio the extents of the quadrilateral and the ratio of its side lengths, InnerMargin/OuterMargin the gap on the given side. A direction without two components raises. Scalar and one-node Vector return their argument; a Vector over a size node with children returns the array followed by its parts again.","every primitive geometry, direction and side; all size nodes of depth one and arrays","all real coordinates",[f"{CO}:DirectedDistance",f"{CO}:UnitLineVector",f"{CO}:Midpoint",f"{CO}:Width",f"{CO}:InnerMargin",f"{CO}:OuterMargin",f"{CO}:Vector"])
p("C97","solve touches nothing and returns a tree of its own","solve(layout) depends only on the trees the layout's objects show and changes no existing object, whether it succeeds or raises: every layout and tree there was, including those sharing objects with the one solved, is as before. The returned tree consists of new nodes, each at one place; changing them changes no older tree, and later calls on any older layout or changes of older nodes do not show in it. Solving again, even after the first solution was changed, gives the same solution and errors, in new objects.","every layout, every sharing of its objects, every later change or call history, both methods","arbitrary sharing patterns and histories",[f"{SO}:solve",f"{PR}:filter_unique_values_from_prim",f"{PR}:build_prim_from_unique_values",f"{CN}:unflatten"])
p("C98","Sizes that follow from others","What was not asked for follows from what was: if all constraints hold (and figure and axes come out with positive sizes), a figure with a grid of axes, of which the width (height) and the aspect ratio of the first axes are asked, is drawn with the height (width) that margins, gaps, ratios and aspect ratio add up to, and the axes where C92 puts them. The figure of the colour-bar example (width, plot aspect, bar thickness, gap, margins, sides in line) and the figure of the two-axes example (size, width of the left axes, gap, margins, aligned in a row) are drawn with the sizes and margins that the requests leave over.","every r, c >= 1, all ratios, gaps, margins, sizes and aspect ratios, every layout history with these requests, every tree satisfying it","unbounded grids, all reals",[f"{CR}:AspectRatio",f"{CR}:Grid",f"{CR}:RectilinearGrid",f"{CR}:Collinear",f"{CR}:MidpointXDistance",f"{CR}:AlignRow",f"{MU}:subplots","examples/contour_colorbar.ipynb","examples/two_axes.ipynb"])
p("C99","One Newton iteration solves straight layouts started from default primitives","If every constraint of a layout is of the shipped kinds that compare straight boxes (the linear ones on any primitives; Length, RelativeLength, Collinear, AlignRow, AlignColumn, RectilinearGrid and Grid on quadrilaterals or axes frames that start as the default unit square and are asked to be boxes), and the constraints can be met with all those boxes upright, then Newton's method with exact derivatives and an exact least-squares solve meets all constraints exactly after its first iteration, stays there, and returns among the upright solutions the one closest to the start (a unique one). For a grid figure drawing then succeeds, with exactly the requested size and margins.","every history of shipped calls of these kinds, every satisfiable choice of sizes, ratios and margins, all tolerances and max_iter >= 1, every exact backend","Grid and Length are not linear, so that one step solves them is a fact about all layouts and numbers, not of a sample",[f"{SO}:solve_newton",f"{SO}:solve",f"{CR}:Grid",f"{CR}:RelativeLength",f"{CR}:Collinear",f"{PR}:Quadrilateral"])
p("C100","Drawing a layout succeeds","subplots and update_subplots do not fail on a tree with the structure of a layout (solved or not, by whatever solver) if the figure is a quadrilateral whose opposite corners differ in both coordinates and each axes key names an Axes(...), with any choice of x, y and twin axes; axes may also be found by their names. In particular after a solve that leaves residual at most e: if the figure's size was asked to be w by h with |w|, |h| > 2e, drawing succeeds, with size and margins within 2e of the requested ones.","every layout history, every tree of its structure, every list of axes keys, both solver methods, any backend and tolerances","all trees and all backends",[f"{MU}:subplots",f"{MU}:update_subplots",f"{MU}:find_axis_position",f"{PR}:Axes",f"{SO}:solve"])
p("C101","Asking for a width and an aspect ratio: what Newton's method does from the default square","For a figure asked to be a Box of width W > 0 with AspectRatio k > 0, solved from the default unit square: after the first iteration the width is exactly W and stays so, and the signed height goes through an explicit recursion h -> h (2 - k|h|/W) from h = W + 1 - k; the reported errors are the deviations of W/|h| from k. If 0 < k|W+1-k| < 2W the solve never fails and |h| tends quadratically to W/k. Three expectations are false although a box of height W/k satisfies every constraint: for k|W+1-k| > 3W the iterates move away, at least geometrically, and all errors stay above 2k/3; for k|W+1-k| = 2W (for example W = 6, k = 3) the third iteration divides by zero; for k > W + 1 with k(k-W-1) < 2W it converges to a figure of negative height, which is passed on to matplotlib.","every W > 0, k > 0, all tolerances and iteration limits, every exact backend","an infinite family of inputs with chaotic or divergent behaviour for some of them",[f"{CO}:AspectRatio",f"{CR}:AspectRatio",f"{CR}:Width",f"{CR}:Box",f"{SO}:solve_newton",f"{PR}:Quadrilateral",f"{MU}:subplots"])
p("C102","A height and an aspect ratio are found exactly in two iterations","For a figure asked to be a Box of height H > 0 with AspectRatio k > 0, solved from the default unit square with H + k <> 1: the second Newton iteration satisfies all constraints exactly (where asking for a width instead may fail, C101), further iterations keep it, and drawing sets the size (kH, H) if H + k > 1. That the width is always positive is false: for H + k < 1 the solve ends with a figure of width -kH, although a box of width kH satisfies the constraints.","every H > 0, k > 0 with H + k <> 1, all tolerances that the default square does not already meet, all iteration limits from 2, every exact backend","an infinite family of inputs and backends",[f"{CO}:AspectRatio",f"{CR}:AspectRatio",f"{CR}:Height",f"{CR}:Box",f"{SO}:solve_newton",f"{PR}:Quadrilateral",f"{MU}:subplots"])
p("C103","The drawing scales with the unit of length","Multiplying all coordinates of a tree by k > 0 gives the same figure k times the size: subplots and update_subplots issue the same matplotlib calls in the same order and succeed or fail alike, the figure's size in inches is multiplied by k, and all axes rectangles, label coordinates and tick sides are unchanged.","every tree (solved or not, well formed or not), every k > 0, every figure key and list of axes keys","all trees and all factors",[f"{MU}:subplots",f"{MU}:update_subplots",f"{MU}:find_axis_position",f"{MU}:rect_from_box",f"{MU}:width_and_height_from_quad"])
p("C104","Constraints do not depend on the unit of length","Take a constraint of the library and primitives, multiply all coordinates and the parameters that are lengths (distances, widths, heights, margins, coordinates, thicknesses measured on a figure k times as large) by k > 0 and leave ratios, angles and flags alone: every residual is multiplied by a positive number and exceptions are the same, so the constraint holds before exactly if it holds after. A layout built by the same calls in the other unit succeeds in the same calls, holds the scaled tree, and is satisfied at a scaled tree exactly if the original is satisfied at the tree.","every constraint of the library (margin arrays and grids of any size included), every k > 0, all primitives and parameters of the documented form; every layout history of such constraints with slash-free constraint keys, every tree of the layout's structure","all constraints, factors, parameters and histories",[f"{CO}:ConstructionNode.__call__",f"{CR}:Grid",f"{CR}:Fix",f"{CR}:Width",f"{CR}:AspectRatio",f"{LA}:Layout.add_constraint",f"{SO}:assem_constraint_residual"])
p("C105","What add_constraint answers","add_constraint(c, prim_keys, params, key) raises KeyError with the first primitive key that names nothing; otherwise RuntimeError if the primitives are not of the declared number and classes, or the parameters not of the declared number; otherwise KeyError with the key if it is taken or its parent is missing; in all these cases the layout's trees are unchanged. Otherwise it succeeds: the constraint, its primitive keys and its parameters are found under the key and nothing else changes. Without a key it never fails for lack of one: the constraint becomes the last child under its class name followed by a number not used before, even if the automatic keys were also chosen by hand.","every layout (for the last three cases: after every history of shipped constraints, failed calls included), every constraint, list of keys, list of parameters, every key with or without slashes","all layouts, histories and arguments",[f"{LA}:Layout.add_constraint",f"{CN}:ItemCounter.add_item_to_nodes",f"{CO}:ConstructionNode.validate_prims",f"{CO}:ConstructionNode.validate_params"])
p("C106","Solving in another unit of length gives the same figure","Build a layout of constraints that are linear in the coordinates (boxes, margins, widths, heights, fixed points, distances along axes, ...), and build it again by the same calls in another unit of length: coordinates and lengths times k > 0. If the constraints can be satisfied, solving the second layout returns the solution of the first with every coordinate multiplied by k, whatever the tolerances, the iteration limits (at least one) and the two linear-algebra backends; the figure drawn from it is the same picture k times the size.","every history of successful calls with affine shipped constraints under slash-free keys, every k > 0, all tolerances and iteration limits, every pair of exact backends","all histories, factors, tolerances and backends",[f"{SO}:solve",f"{SO}:solve_newton",f"{LA}:Layout.add_constraint",f"{MU}:update_subplots"])
p("C107","Constraints that do not mention the axes do not depend on how the figure is turned","Turn all primitives by the same angle about the origin. Every construction made of lengths, distances along or across lines, ratios, orthogonality, parallelism and collinearity keeps its value (or its exception): Length, RelativeLength, Orthogonal, Parallel, Collinear, the point/line distances, AspectRatio, AlignRow and AlignColumn, rectilinear grids, axis label positions. Coincident, CoincidentLines, CoincidentOutwardFaces and the axis placements hold before turning exactly if they hold after. A layout of such constraints is satisfied at a tree exactly if it is satisfied at the turned tree. Claimed of Angle too, but refuted: turning the lines can change what Angle measures by a full turn.","every construction expression over these constructions, every angle, all primitives made of points in the plane, all parameters, every history of calls (failing ones included)","all angles, primitives, expressions and histories",[f"{CO}:Length",f"{CO}:PointToLineDistance",f"{CO}:Angle",f"{CR}:Orthogonal",f"{CR}:Collinear",f"{CR}:AspectRatio",f"{CR}:RectilinearGrid",f"{CR}:CoincidentOutwardFaces"])
p("C108","Stating what already holds changes nothing; stating more never brings the solution nearer",
 "Take two layouts with the same primitives, the second with all the constraints of the first and further ones, every constraint being affine. If the figure solved from the first satisfies every constraint of the second, solving the second gives exactly that figure: pinning down a value the solve already produced has no effect. Whenever the constraints of the second can be satisfied at all, its solution is at least as far from the starting figure as that of the first, and equally far only if it is the same figure.",
 "Every two shipped sequences of add_primitive/add_constraint calls reaching such layouts, every starting figure, all tolerances and iteration limits of at least one, and every backend that returns minimum-norm least-squares solutions.",
 "A test pins one dimension of one figure to the value it came out with; that no other coordinate moves, for any set of constraints and any pinned quantity, depends on the solution being the nearest one, a statement about all other figures.",
 [SO+":solve",SO+":solve_newton",LA+":Layout.add_constraint"])
p("C109","The solved figure depends on the starting figure without jumps; solving again changes nothing",
 "Take two layouts with the same constraints, every constraint being affine, whose primitives have the same structure but start from different numbers. The two solutions are no farther apart than the two starting figures are (in the Euclidean distance of all coordinates), so no coordinate of the solutions differs by more than that distance: a small change of the starting figure never makes the solved figure jump. If the second layout starts from the solution of the first, the solver returns these numbers again, also when the constraints contradict each other and the solution is only the best compromise. So it does when the second layout starts halfway, or anywhere else on the straight line through start and solution that is not beyond the solution.",
 "Every two histories of add_primitive/add_constraint calls (failing ones included) reaching such layouts, all starting numbers, all tolerances and iteration limits of at least one, and all backends returning minimum-norm least-squares solutions.",
 "Stability is a statement about all pairs of starting figures: tests compare a few.",
 [SO+":solve",SO+":solve_newton",LA+":Layout.add_prim"])
p("C110","A part of the figure that no constraint ties to the rest is solved on its own",
 "Call some of the arrays of a layout a part, such that every constraint refers either only to arrays of the part or to none of them. If the constraints are affine, solving the layout (exactly, or in the least-squares sense when they contradict each other) gives the arrays of the part exactly the numbers they get when only the constraints on the part had been added: adding a second, unconnected construction (with its own constraints) never disturbs the first.",
 "Every two shipped histories of add_primitive/add_constraint calls reaching such layouts, every choice of the part, all starting numbers, tolerances, iteration limits of at least one, and backends returning minimum-norm least-squares solutions.",
 "Tests look at one combination of two figures; non-interference is about every pair of independent constructions.",
 [SO+":solve",SO+":solve_newton",SO+":assem_constraint_residual",LA+":Layout.add_constraint"])
p("C111","Constraints that know neither the axes nor left and right hold for the mirror image too",
 "Mirror all primitives about the same line through the origin (about the x axis, the y axis, a diagonal, any direction). Every construction made of lengths, distances along lines, ratios and orthogonality keeps its value (or its exception): Length, RelativeLength, Orthogonal, PointOnLineDistance, RelativePointOnLineDistance, AspectRatio, axis label positions. PointToLineDistance, which is signed, changes its sign. Parallel, Collinear, AlignRow, AlignColumn, rectilinear grids, Coincident, CoincidentLines, CoincidentOutwardFaces and the axis placements hold before mirroring exactly if they hold after. A layout of such constraints is satisfied at a tree exactly if it is satisfied at the mirrored tree: the constraints cannot tell the two apart. Mirrored about the x or the y axis, Horizontal, Vertical and Box may be among them.",
 "every construction expression over these constructions, every mirror line through the origin, all primitives made of points in the plane, all parameters, every history of calls (failing ones included)",
 "all mirror lines, primitives, expressions and histories",
 [f"{CO}:Length",f"{CO}:PointToLineDistance",f"{CR}:Orthogonal",f"{CR}:Parallel",f"{CR}:Collinear",f"{CR}:AspectRatio",f"{CR}:RectilinearGrid",f"{CR}:CoincidentOutwardFaces"])
json_lines="\n".join(json.dumps(x) for x in P)+"\n"
open("/verif/properties.jsonl","w").write(json_lines)
print(len(P))
