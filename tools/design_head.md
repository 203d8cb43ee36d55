# Formal model of mpl-layout in Rocq (Coq 8.16.1)

Source: `/repo/src/mpllayout/*.py` at the pinned commit, read as text. Nothing is executed; the only tie
between model and code is the file/line citation on each definition.

## Shape of the model

* **Exceptions are values**: `result A := Ok a | Err exn`. Code that mutates before it can raise is modelled
  with the new state *and* the result, so a partial update before an exception is visible.
* **Trees** (`containers.Node`): `node T A` = class tag, value, insertion-ordered association list of children
  (a Python dict). Keys are Coq `string`s and slash splitting is done on characters.
* **Objects**: the same container code, and the mutating part of `layout.py`, is modelled a second time with
  `Node` objects as references into heaps (`Heap.v`, `HeapLayout.v`), so that one node can be the child of several
  nodes or layouts. C75-C78 relate the two: a call on objects does what the call on trees does, to every holder of
  the changed object and to nothing else. Theorems about histories of trees transfer through C78.
* **Object identity of parameter vectors** (`id(prim.value)`) is explicit: a primitive value is an identity
  (`nat`) plus its data. Constructors take the next free identity and return the next one.
* **Constructions**: a node whose class tag carries the `assem` function and whose value carries
  `child_prim_keys`, `child_params`, and the signature, just as in `constructions.py`.
* **Numbers**: everything is generic in a type `F` with operations (`Num F`). Structural theorems hold for
  every `Num F`; geometric theorems are at `F = R` (Coq's axiomatic reals). A rational instance makes the
  model executable (`vm_compute`) for concrete cases. Division by zero, square roots of negatives, `0**-1` are
  `Err NonFinite` (the code yields nan/inf or ZeroDivisionError there), never a default number.
* **numpy/jax values** (`pyval`): Python int, float, bool, None, list, 0-d array, 1-d array, matplotlib axis,
  dict. `+`, `*`, `**` follow Python/numpy rules incl. broadcasting of sizes 0/1 and list repetition.
* **External calls** are parameters (functions) of the model: `np.linalg.lstsq`+`jax.jacfwd` (Newton step),
  `scipy.optimize.minimize` (sequence of intermediate results), matplotlib (measured bounding boxes; the
  sequence of setter calls is the observable output).
* **Loops and recursion** that Coq cannot see terminating run on fuel that is computed from the input, with
  `OutOfFuel` as an explicit outcome; the theorems show that it never occurs on inputs they speak of
  (for a cyclic structure of nodes, where Python raises RecursionError, it does: C75_cycle).

## Files

| Model | Code |
|---|---|
| `Base.v`, `Num.v` | Python/numpy vocabulary: exceptions, dicts, keys, slices, run-time values and operators |
| `Node.v` | `containers.py`: `Node`, `map`, `accumulate`, `iter_flat`, `flatten`, `unflatten`, `ItemCounter` |
| `Index.v` | `containers.py`: integer and slice subscripts |
| `Repr.v` | `containers.py`: `__repr__`, `__str__` |
| `Pytree.v` | the jax pytree registration of nodes and primitives |
| `Heap.v` | `containers.py` with object identity |
| `Prim.v` | `primitives.py`: `Primitive`, constructors, unique values and their packing |
| `Cons.v` | `constructions.py`: nodes, evaluation, validation, transforms, operators |
| `Geom.v` | `constructions.py`: the concrete constructions |
| `Constr.v` | `constraints.py` |
| `Layout.v`, `HeapLayout.v` | `layout.py`, on trees and on objects |
| `HeapSolve.v` | `solver.py` on objects |
| `Solver.v`, `Backend.v` | `solver.py`, the numpy/jax calls in it |
| `MplUtils.v` | `matplotlibutils.py` |
| `Ui.v`, `UiFig.v` | `ui.py`: items drawn; colours and figure |
| `Inst.v` | number instances R and Q |

Specification vocabulary (independent of the model's helpers): `Spec.v`, `ConsSpec.v`, `GeomSpec.v`, `LayoutSpec.v`,
`ReadySpec.v`, `ShippedSpec.v`, `SizeSpec.v`, `SolverSpec.v`, `BackendSpec.v`, `StationSpec.v`, `MoveSpec.v`, `MinSpec.v`, `IndexSpec.v`, `PytreeSpec.v`, `GridEndSpec.v`, `ImpliedSpec.v`, `OneStepSpec.v`, `DrawSpec.v`, `AspectSpec.v`, `AspectHSpec.v`, `RoomSpec.v`, `ReprSpec.v`, `UiFigSpec.v`, `LsqSpec.v`, `ExprSpec.v`, `MplSpec.v`, `UiSpec.v`, `EndSpec.v`, `HeapSpec.v`, `HeapLayoutSpec.v`.
Property theorems, each followed by concrete cases that meet its hypotheses: `P_*.v`. Everything else is lemmas.

## Trusted base

* Coq 8.16.1's kernel (including `vm_compute`), and the reading of the Python source.
* The axioms in the last column of the table below, as listed by `Print Assumptions` under each theorem:
  *none*, or those of the standard library's reals (**R** = `ClassicalDedekindReals.sig_forall_dec`,
  `ClassicalDedekindReals.sig_not_dec`, `FunctionalExtensionality.functional_extensionality_dep`) and
  **C** = `Classical_Prop.classic` (through the standard library's trigonometry). No axioms of our own, no other
  library's. Coquelicot's `Derive` is used in `P_Ideal.v` and `P_Min.v` to construct a backend and an optimiser
  that meet the assumptions of C82-C89 (it adds no axioms).
* Not modelled: floating-point rounding, jit compilation/tracing, jax's automatic differentiation, scipy's and LAPACK's algorithms, matplotlib rendering, performance, warnings, user-defined
  subclasses of primitives, the example script and the tests.

## How the properties are modelled and proved

| Ids | Modelled by | Proof |
|----|-------------|------------------|
| C01-C05 | `get_child`, `add_child`, `setitem`, `contains` on strings, branch by branch (fuel = key length) | equal to walking the components of the key; induction on components; frame lemma for all other paths |
| C06-C10 | `iter_flat`, `flatten`, `unflatten`, `map`, `accumulate`, `node_height` | nested-tree induction; key injectivity for slash-free keys |
| C11 | `ItemCounter` as state, while loop on fuel | pigeonhole: number of keys + 1 rounds always suffice |
| C12-C15, C72, C74 | class constructors with identity supply | list induction on points; finite flag analysis |
| C16-C19, C30 | `filter_unique_values_from_prim`, `build_prim_from_unique_values`, cumulative-sum slicing, `chunk` | loop invariant over the flat list; list lemmas |
| C20 | `call` = validate, three flattened trees, zip, concat | refinement to a recursive denotation (`denote`) |
| C21 | sizes of all `assem` outputs | per class, for arrays and grids of every size |
| C22-C29 | the construction transforms on zipped preorder lists | induction over the tree through `denote` |
| C31-C33 | validation, constructor checks, operator overloads | case analysis |
| C34-C43, C48-C50, C69 | concrete constructions and constraints at R | evaluation through `denote`, then real arithmetic |
| C44-C47 | arrays/grids for every N, r, c | map law + index arithmetic |
| C51-C56, C70, C71 | `Layout` as a state machine | invariants over call histories, failing calls included |
| C57-C62 | Newton loop with oracle step; minimize callback as fold | induction on iterations; directional derivatives and affine residuals for C60 |
| C63-C66 | `update_subplots` as a sequence of setter calls | evaluation of the sequence |
| C67, C68, C73 | `plot_prims` as the list of drawn items | tree induction; trigonometry |
| C79 | the three parts together: history, solver, setter calls | residual of the layout split into its constraints (C53), their values on quadrilaterals (C41-C43), setter calls (C63), one Newton step (C60) |
| C80, C81 | all expressions over the shipped constructions (inductive `expressible`) | closure of the two properties (invariance under forgetting array identities; same length for same sizes) under every transform |
| C82-C85 | `Backend.v`: Jacobian by rows, `lstsq` with minimum norm, Newton loop on top | least-squares theory on lists (`Lsq.v`: existence by projection, uniqueness), affine residual = linearisation, zero columns of bystanders, permuted rows |
| C86 | as C83 | both solves end at the point of the common solution set closest to the start, which is unique (C83); stating a set of constraints differently leaves the solution set alone (C79_every_constraint) |
| C87 | as C82; slopes of `assem_objective` as derivatives along lines (`StationSpec.v`) | normal equations of the least-squares step: the slope along the step d is -2 times the squared length of J d |
| C88 | displaced trees and call histories (`MoveSpec.v`); expressions over the constructions that only compare positions | induction over expressions: every leaf takes differences; simulation of the Newton loop; the least-norm step is orthogonal to the common translations, which the Jacobian maps to 0 |
| C89 | optimiser = sequence of intermediate results (`MinSpec.v`) | callback loop commutes with a map on vectors; permuted residual has the same sum of squares; directions of constancy |
| C90 | `Index.v`: `__getitem__` for all key types, CPython's slice arithmetic | arithmetic progressions = filtered positions (strictly sorted lists with the same members) |
| C91 | `Pytree.v`: the registered flatten/unflatten functions and jax's treatment of dicts | induction on trees; a sorted list is determined by its members |
| C92 | C79's workflow with Grid (C46), or RectilinearGrid (C45), RelativeLength and OuterMargin | every constraint holds (C79), so rows and columns are consecutive intervals of given sizes and gaps; induction on the column/row |
| C93 | `Repr.v` with arbitrary printing of classes and values | a clean text ends at the first special character, so a text can be read back: induction on trees with a continuation |
| C94 | `UiFig.v`: the calls of `figure_prims`, items with their colour | induction over the loop of `plot_prims`; integer division for colour tables |
| C95 | update_layout_constraints on layout histories, then C79's workflow with axis boxes | the parameter tree after the update is the one of the same history with measured parameters (C73), then C69, C48, C43 give the boxes, C63-C65 the drawing, C40/C49 the labels |
| C96 | the constructions as called by users: call of every leaf and compound construction of constructions.py | evaluate the recorded assembly on primitives with given coordinates, compare with vector algebra in GeomSpec.v |
| C97 | solver.py on objects (`HeapSolve.v`): the layout's trees are references into heaps, every tree built while solving is allocated | refinement of solve on trees, call by call of the Newton loop; freshness of `unflatten`; framing of later changes |
| C98 | C92's workflow with the figure's height or width replaced by an aspect ratio; the example notebooks' colour bar and two axes | the first cell's size is that of C92's unit; linear arithmetic from C35/C36/C38/C42/C43 |
| C99 | solve_newton on layouts of straight boxes; Length, RelativeLength, Collinear and the grids at unit squares | each residual has an affine tangent map at the start (the derivative of sqrt at 1 is exact on upright boxes) whose zeros are zeros of the residual; the least-squares step lands on the closest one; a grid solution upright near the witness has the sizes of C92, hence is upright |
| C100 | subplots/update_subplots on every tree of the layout's structure; Axes constructor | each lookup succeeds because keys, classes and vector sizes are those of the built layout; with C79's solver output and figure theorem |
| C101 | Box + Width + AspectRatio on a default Quadrilateral, whole solve_newton loop, subplots | residual of 8 numbers computed; linearisation of a quotient of lengths; exact least-squares step on boxes; induction over the loop |
| C102 | as C101 with Height | as C101; the step from a box of the right height is exact |
| C103 | MplUtils.v; a map multiplying every coordinate (ScaleSpec.v) | every step of the drawing commutes with it; the tick sides through an invariant of construction calls (ScaleProofs.v) |
| C104 | Constr.v, Geom.v, Layout.v; a table of the parameters that are lengths (UnitSpec.v) | each leaf residual is homogeneous (ScaleCons.v), induction over constraint trees (ScaleComp.v, UnitProofs.v) and over histories (UnitLayout.v) |
| C105 | Layout.v, Node.v (ItemCounter) | case analysis of the call on a lockstep layout; the generated key is fresh by the counting argument of C11 (P_Outcome.v) |
| C106 | Solver.v, Backend.v, Layout.v, MplUtils.v, as C83 and C104 | the nearest solution of the scaled system is the scaled nearest solution: distances scale by k^2 and the minimiser of C83 is unique (UnitSolve.v, P_UnitSolve.v); drawing by C103 |
| C107 | Geom.v, Constr.v, Cons.v, Layout.v; turning in TurnSpec.v | each leaf is built from inner and cross products of differences, preserved by rotations; induction over expressions as in C88 (TurnProofs.v); weaker zero-iff-zero relation for the coincidences |
| C108 | two layouts of affine constraints on the same primitives, one with more constraints | least-squares and nearest-solution characterisation of C83 for both layouts, C79's account of the residual by constraints, uniqueness of the nearest solution (P_Pinned) |
| C109 | two layouts of the same affine constraints, with primitives that differ in their numbers | the least-squares solutions form a convex set (residuals are affine); a solution is the nearest of them to the start (C83), hence the obtuse-angle inequality at both solutions, whose sum gives the bound (P_Stable) |
| C110 | a layout and the layout with only the constraints on some of its arrays | exchanging the numbers of the part between the two solutions gives trees satisfying either layout (constraints depend on the content of the primitives they are handed, C80); the squared distances of the exchanged trees add up to those of the solutions, so the nearest-solution property (C83) forces equality (P_Parts) |
| C111 | mirroring a tree about a line through the origin (MirrorSpec) | as for C107; the cross products of Parallel and Collinear and the normal distance change their sign, so the former vanish together and the latter is negated (MirrorProofs, P_Mirror) |
| C75-C78 | containers and layouts on objects | simulation between objects and trees |

All properties could be expressed. Properties whose natural statement turned out false of the code are stated as
they hold (see `properties.jsonl`), with the false statement refuted by a concrete case:

## Findings (proved counterexamples)

* C04, C05: `node['a/'] = x`, `'a/' in node`, `'x/y' in node` with `x` missing (KeyError instead of False).
* C07: child keys containing '/' make flattened keys ambiguous.
* C13, C15: surplus points/prims are silently dropped.
* C21: `CoincidentLines` declares size 2 and returns 4.
* C23: `Width() + Width()` is not the sum of values (children's primitive keys collide).
* C27: `construction.constraint()` of depth two silently loses residuals; array targets of compound constructions fail.
* C29: partial application freezing nothing raises when called.
* C32: the arity check of `ConstructionNode` never fires. C33: sums with numbers and `Scalar * number` raise.
* C37: `AngleBetweenLines` returns values outside (-pi, pi].
* C47: `idx_1d` is wrong in three dimensions.
* C50: an unusual tick position raises and leaves the axis label invisible.
* C51, C52, C55: a Grid with too few margins, or numbers instead of arrays, leaves the layout's trees out of step.
* C59: the error reported by 'newton' is that of the iterate before the returned one. C62: 'minimize' reports squares.
* C64: labels are not measured from the figure's corner. C68: label rotation of lines pointing down is mirrored.
* C96: a `Vector` over a node with children returns its array twice.
* C75: a node can be added below itself. C77: adding a constraint to an updated layout also adds it, without
  parameters, to the original; later additions then pair constraints with the wrong parameters.
* C101: a figure of width 6 with AspectRatio 3 breaks Newton's method down (division by zero in the third iteration), with
  AspectRatio 10 it diverges, with AspectRatio 8 it finds a figure of height -0.75; boxes 6 by 2, 0.6, 0.75 satisfy the constraints. C102: height 1/2 and AspectRatio 1/4 give width -1/8.

## Testing the theorems

`seeded/LOG.jsonl`: each line is one edit of the model (a realistic bug), the claim it breaks and the theorems whose
proofs then failed. Seven edits that break a claim went unnoticed at first (m016, m027, q008, r018, r021, r034, r059) and led to new or
restated theorems; the reruns (m016r, m027r, r001, s001-s004) are noticed.

