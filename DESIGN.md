# Formal model of ghx_constrained_delaunay in Rocq (Coq 8.16.1)

## What is modelled

| file in /repo/src | Coq file | coverage |
|---|---|---|
| types.rs, types/vertex.rs | theories/Types.v, theories/TypesMore.v, theories/Space3d.v, theories/Input2d.v | index tables, Edge, TriangleData, Triangles ids, Quad, Vertex2d/Vertex3d operations and the `as Float` conversions |
| utils.rs | theories/Utils.v, theories/Quality.v | all functions (Quality.v: the circumcircle checker, with the square root as a parameter) |
| infinite.rs | theories/Infinite.v | all functions |
| triangulation.rs | theories/Triangulation.v, theories/Space3d.v | all functions; `powf` is a parameter (every bin count is covered) |
| constrained_triangulation.rs | theories/Constrained.v, theories/Space3d.v | all functions |
| debug.rs and the `debug_context` feature | theories/Debug.v | recorder, step counter and every instrumentation point of both entry points |

The model is a set of total Gallina functions in a result monad `res` (Base.v):
`Ret` (Ok), `Fail` (an `Err` value), `Panic` (index out of bounds, integer overflow with
overflow checks on, `ArrayVec` overflow), `OutOfFuel` (the model's fuel for the unbounded
`while let Some(..) = pop()` loops ran out: never a Rust outcome; the termination theorems
show that fuel above an explicit bound never runs out).

Arithmetic is a parameter (`Env`, Arith.v): a float type with its operations and the index
type's maximum.  Instances: IEEE binary64 and binary32 (F64.v, on the standard library's
`SpecFloat`), with u32 or u64 ids, and exact rationals (QEnv.v) with the tolerances of f64.

Not modelled: `powf`, `Vec` capacities and allocation failure, tracing and logging
(`progress_log`, `profile_traces`), hash set iteration order (never observed by the code),
release-mode wrapping arithmetic
(overflow is a `Panic`), the examples and benches.  glam's vector operations (3d input) are
modelled from their documentation.

## Four kinds of theorems

1. *Any arithmetic*: quantified over every `Env`, so they hold with NaN, infinities, any rounding.
2. *Exact inputs*: for `exact_input vs at_ bound` (InputSpec.v), i.e. vertices `vs` of exact
   positions `at_`, in f64, f32 or exact rationals, which are either integer points on a
   small grid (`on_grid`, GridSpec.v) or well separated (`separated`, InputSpec.v: coordinates
   equal or 40 eps apart, triples plainly aligned or of double area 24 eps, quads rectangles or
   192 eps away from cocircular, relative to the extent of the input).  On these inputs every
   predicate the code evaluates on the normalised vertices is right (C39).  Internally the
   proofs go through `Exact`/`ExactC` (Exact.v, ExactC.v): the float predicates give the
   answers of exact arithmetic on given rational positions.
3. *Refutations*: concrete f64 inputs run by `vm_compute` in the model; names end in `_refuted`.
4. *Real arithmetic*: the plane coordinates of 3d input (C34), the circumcircle checker (C44).

## Geometry

Vertices are homogeneous points: finite (x, y, 1), the four infinite ones (-1,0,0), (0,1,0),
(1,0,0), (0,-1,0).  A triangle is strictly clockwise iff the determinant of its corners is
negative; this treats finite, one-infinite and two-infinite triangles alike.  The open triangle
is the set of points strictly to the right of its three edges.  Mesh invariant: gluing (each
edge's neighbour has the reversed edge and points back; only edges between two infinite
vertices have no neighbour), all triangles clockwise, open triangles pairwise disjoint, closed
triangles cover the plane.

## Files

Specification (definitions only, no proofs; what a reader has to trust besides the model):
Spec.v (points, orientation, circles, meshes), SpecCdt.v (domain filter), GridSpec.v and
InputSpec.v (arithmetics and inputs), Spec3d.v, SpecDebug.v,
SpecQuality.v (real circles), SpecMargin.v (corners clear of circles, with rounding), SpecBox.v (boxes, default number of bins), SpecSelect.v (triangles selected by their own edges), SpecTally.v (comparing numbers of triangles), SpecWinding.v, SpecFilling.v (winding numbers, simple polygons), SpecArea.v (areas, borders), SpecTiles.v, SpecTilesArea.v, SpecConforming.v, SpecAlone.v (polygons side by side, the triangles of one of them, no cracks, no choice on a circle inside), SpecUnique.v (two inputs with the same points), SpecVisible.v (vertices seen from a point), SpecAngle.v (angles, closest pairs, one more point), SpecRound3d.v (3d vectors of floats, sizes and errors), SpecCast.v (the same number in two formats, the nearest number), SpecDomain.v (the area
selected by constraints, constrained Delaunay).

| files | content |
|---|---|
| Base, Arith, Types, Utils, Infinite, Triangulation, Constrained, Space3d, Input2d, Debug, Quality, F64, QEnv | the model |
| ModelTests | the repository's unit tests run on the model |
| BaseFacts, Small, AnyDT, AnyCDT | any arithmetic |
| Geom, Mesh, MeshOps, MeshVerts | plane geometry, the mesh invariant, its local operations |
| Exact, Walk, Insert, DTExact, DTOut, ApiProps | Delaunay part with exact predicates |
| Lifted, MeshEdge, Lawson, Empty, Holes, LawsonApi, WalkEnd, LawsonGrid, OneBin, Box, BoxGrid, Unique, UniqueGrid, Charact, Angle, AngleR, AngleApi, Hull, Count | local and global Delaunay property, covered area, end of the walk, vertices in a box, comparison of two inputs, numbers of triangles and border edges |
| ExactC, CSwap, CCross, CReg, CPres, CTerm, CSearch, CApply, CTotal, CdtApi, CdtTotal, CLocal, LocalGrid, Domain, DomainApi, DomainGrid, CDel, CDelTwo, CDelApi, CDelGrid, CUnique, COrderApi, COrderGrid, Visible, VisibleGrid, CCharact, Select, SelectGrid, Germ, GermCount, Tally, TallyGrid, Winding, Inside, InsideGrid, Tube, Polygon, Jordan, Ring, Diagonal, Filling, FillingGrid, Rays, RaysGrid, Outside, Anywhere, AnywhereCount, Facing, Area, AreaGrid, BoxArea, BoxAreaGrid, Used, Tiles, TilesArea, TilesCount, TilesBorder, TypesFacts, TilesAlone | constrained part with exact predicates |
| Rep, SFRep, QExact, Norm, GridExact, Cross, Grid64, GridNum, Slope | rounding laws; no rounding on grids |
| Near, SepExact, SepNorm | relative error of every operation; predicates on well separated inputs |
| GridApi, GridCdt, ApiGrid, QNorm, Pred, PredApi | from predicates to the entry points |
| Space3dFacts, Round3d, Round3dApi, DebugFacts, DebugEnd, DebugTrace, DebugReplay | 3d input, debug recording |
| Cast, CastApi, Cast3d | conversions between f32 and f64 |
| QualityFacts, QualityApi, RoundCircle, RoundCircleApi | the circumcircle checker, without and with rounding |
| Refuted, Witness, WitnessSep, WitnessLawson, Witness3d, WitnessDebug, WitnessQuality, WitnessMargin, WitnessBox, WitnessError, WitnessLocal, WitnessHole, WitnessDel, WitnessUnique, WitnessOrder, WitnessMove, WitnessVisible, WitnessCExact, WitnessAngle, WitnessRound3d, WitnessCast, WitnessSelect, WitnessTally, WitnessWinding, WitnessPolygon | concrete inputs |
| Properties | the theorems of properties.jsonl, each with a concrete case, and Print Assumptions |

## Plan per property

| id | what is modelled / proved | layer |
|---|---|---|
| C01 | entry points return `Ret []` for length < 3 | any arithmetic |
| C02 | ids of output < length of input, by invariant over both loops | any arithmetic |
| C03 | result of `bin_sort` is a permutation of 0..n-1 | any arithmetic |
| C04 | `bin_sort` returns for coordinates in [0,1] and bins >= 1; 0 bins panics | f64, f32, Q + refutation |
| C05 | normalised coordinates in [0,1] by monotone rounding; similarity | f64, f32, Q; Q and grids |
| C06 | mesh length = 4 + 2 * insertions; output <= 2n-2 | any arithmetic; exact inputs |
| C07 | merge mapping invariant | any arithmetic |
| C08 | representative function, injectivity of positions | exact inputs |
| C09-C12 | mesh invariant induction over insertions and swaps | exact inputs |
| C13 | walk invariant | exact inputs |
| C14 | stack invariant + measure (triangles not containing the new vertex) | exact inputs |
| C15 | refutation; `_partial`: legality of the edges around the inserted vertex (see C41, C43 for the rest) | exact inputs + refutation |
| C16 | refutation; no holes (`Spec.no_holes`) on exact inputs | f64 witness; `Holes.escape`: an uncovered point is in a triangle with a vertex at infinity, and the ray toward that vertex stays in it |
| C17 | convexity of swapped quads | exact inputs |
| C18 | refutations | f64 witnesses |
| C19, C20 | set of crossing edges invariant, conditional on `Ret` | exact inputs |
| C21 | same mesh invariant through constrained swaps | exact inputs |
| C22, C23 | DFS invariant, inductive reachability spec | any arithmetic |
| C24 | measure: history is duplicate free in ids below mesh size | any arithmetic |
| C25 | refutation; `_partial`: constraints inside the triangulated area succeed | f64 witness; exact inputs |
| C26, C27 | equational | any arithmetic |
| C28-C30 | polynomial sign reasoning over Q; small integers in f64/f32; margins on any finite value; slope rounded once | exact coordinates |
| C31 | list induction; `SpecFloat` classification | any IEEE format |
| C32 | counting spec | exact coordinates; grids |
| C33 | induction on split tree | any |
| C34 | isometry in reals; mesh results for axis-normal planes; in every plane the rounding error of the plane coordinates, operation by operation from Flocq's theorems (Round3d), and what follows for signed areas (Round3dApi); refutations (equal first vertices; oblique plane) | reals; exact 3d grids; f64 and f32 |
| C35 | exact outcome for n copies of a vertex, refutation of merging | `Identical.v`: all tests are false on NaN, induction over the insertions (the last triangle is split each time, no swap); f64 witness |
| C36 | normalised vertices equal | exact Q |
| C37 | instrumented model: transparency, recording, forced end, replay, returned context | any arithmetic |
| C38 | case analysis | any |
| C39 | Flocq: no rounding on grids; forward error analysis on well separated inputs | f64, f32, Q |
| C40 | every step of the constrained loop, classified | exact inputs |
| C41 | the swaps of one insertion, by planes under the lifted vertices (Lifted, Lawson) | exact inputs |
| C42 | splits and swaps rearrange the same area; an infinite corner is only ever replaced | exact inputs |
| C43 | walk from a triangle towards the vertex through edges that stay violated (Empty) | exact inputs |
| C44 | the checker over any carrier with a square root; real arithmetic; rounding errors of center, radius and distance against a margin (256 u times squared radius plus squared extent); refutations without margin | any; reals; f64/f32; f64 witnesses |
| C45 | the walk never comes back to a triangle: lifted height over the vertex inside the area, direction of the turn outside it (WalkEnd); then a pigeonhole on the bounded loop; a vertex on the border splits the border edge and the flips keep the area (Lawson) | exact inputs |
| C46 | refutation by a walk that runs in a circle; positive part: the insertion of the four corners is executed symbolically for all 24 orders (Box), then C43 and C45 | f64 witness; exact inputs |
| C47 | C46 and C25: every segment between two vertices is in the covered box | exact inputs |
| C48 | every swap of the constrained part is between two triangles that a constraint enters, or that replace such triangles (CLocal) | exact inputs |
| C49 | refutation by a computed result; far from the constraints: C46 and C48; common edges: circles through two points form a pencil (CDel.pencil); few crossed edges: invariants of the removal loop (every edge is old or recorded) and of the restoration loop (every edge is old, the constraint, pending or Delaunay), then an invariant over the list of constraints: a constraint yet to come still crosses at most two edges, because a new edge is a side of an empty triangle on the constraint just applied (CDel, CDelTwo, CDelApi); tightness by a computed result | f64 witness; exact inputs |
| C50 | the side of a triangle a path is in changes only across constraint edges: a path that meets no constraint stays in triangles reached by the domain filter, and the triangles of one domain are linked by such paths (Domain, DomainApi); stated with the paths and sides of SpecDomain only | exact inputs |
| C51 | the power of a point with respect to two empty circles: a point common to two triangles has the same power, so all corners are on both circles (Unique); the triangles then match one to one (UniqueGrid); refutation by computed results | exact inputs, two arithmetics at once; f64 witness |
| C52 | `as Float` is Flocq's rounding to nearest (Cast): exact when the number is in the target format, so the input relation `exact_input` carries over (CastApi); for 3d vectors the plane coordinates are integers in the vector's format, hence in the other one (Cast3d); refutation by computed results | f64 and f32, all index types |
| C53 | The mesh with the four infinite vertices has 2k + 2 triangles (a field of the insertion invariant, DTExact). The unbounded ones are labelled by the border edges and the four sides at infinity (Count) | exact inputs |
| C54 | Border edges are supporting edges of the hull; each hull vertex that is a corner starts exactly one border edge, found from the fan of triangles at it (Hull), so border edges and hull places correspond one to one (Count) | exact inputs |
| C55 | Both runs start from the same mesh (the insertion does not see the constraints) and end in meshes that contain every constraint and are locally Delaunay across all other edges (C49). In such meshes the circle of a triangle is empty up to the constraints (Empty: a walk along a segment with the power of a point as potential). Two triangles of the two meshes that overlap then have the same corners or four corners on a circle (CUnique). The same open or closed set of triangles then follows from the sides of the constraints (COrderApi). Refutations by computed results | exact inputs; f64 witnesses |
| C56 | A triple with an empty circle covers some point of a returned triangle (convexity); the powers with respect to the two empty circles agree there, so both have the same corners or four vertices are on one circle (Charact, with the lemmas of Unique) | exact inputs |
| C57 | The moved result satisfies the description of C51 for the moved vertices: similarities preserve or negate orientations and scale the lifted determinant (Charact); uniqueness (Unique) then gives the second result. Refutation by computed results | exact inputs, two arithmetics at once; f64 witness |
| C58 | The walk of Empty along the way from the triangle to the vertex. The starting point is first moved a little, so that the way meets no other vertex, without changing its side of any line through two vertices; then it meets no constraint either (Visible: touch). The triangles on the way are kept since no constraint separates them (Domain: constant). The edges crossed are thus unconstrained and locally Delaunay. Refutation by a computed result | exact inputs; f64 witness |
| C59 | A listed triangle has the three qualities by C37, the freeness of triangles from constraints and C58. Conversely take such a triangle and a point inside it on no line through two vertices: it is in a domain, hence in a listed triangle, and two different triangles with a common inside point have a corner of one strictly inside the circle of the other or four vertices on one circle (Unique: overlap_circle, by the power of the point); that corner is seen from the common point (CCharact) | exact inputs; f64 witness for the example |
| C60 | Directly, without flips: let a b c be a triangle of the result. The triangle of the other triangulation which contains the points near a, close to the edge a b on the side of c, has a corner z on that side; z is not inside the circle of a b c, so it sees a b at most at the angle at c (Angle: inscribed, sub_angle). With constraints z is seen from a common inside point, and C58 applies. Angles are real numbers (acos); AngleR compares them by cotangents. Refutation: the four vertices of C15 | exact inputs; f64 witness |
| C61 | The triangle that contains the points of the segment near its start: if the segment leaves it through the opposite side, the power of its end with respect to the two circles is contradictory (Unique: power_bary). A closest pair has the circle on its diameter to itself | exact inputs; f64 witness |
| C62 | From C56 for both inputs | exact inputs, two arithmetics at once; f64 witness |
| C63 | A constraint that is an edge of the mesh crosses no edge, so the mesh stays and the filter is a flood fill on the unconstrained result; signed areas: triangles without a border would have area zero | exact inputs |
| C64 | Angles around the vertices without angles: for all but finitely many slopes, the ray in a direction from a vertex enters exactly one triangle, and each triangle is entered from exactly one of its corners by one of the two opposite rays, so counting the rays of one slope counts the triangles; the rays are compared place by place | exact inputs |
| C65 | The winding number is counted by crossings of the half line going up; it changes by a crossing's sign over each constraint and is constant along curves that avoid them; points of general position and a walk from outside the box, where it is 0, connect it with the domain of C50 | exact inputs |
| C66 | Next to a side of a simple polygon the winding number takes two values that differ by one, the same all along the polygon (thin tubes around sides and corners); any point sees some side, so its winding number is one of these two; one of them is 0 because far points have 0 | exact inputs |
| C67 | The mesh of a polygon with no vertex inside has an edge from corner to corner that cuts it in two simple polygons with fewer sides, or is one triangle: induction gives k - 2. Vertices off the polygon are first moved to a corner of the box; putting them back adds two triangles each (C64). With several loops: each triangle holds the start of exactly one of the two rays of a generic direction at one of its corners, so the number of triangles is the number of rays that start inside; next to a loop this only depends on the loop, up to its winding number, and the call with this loop alone gives the number for it | exact inputs |
| C68 | `Outside.v`: from every point off the loops one gets, on a clear segment, to a point that sees a side (the first constraint on a line that misses all ends of constraints, a finite minimum). The winding number there is z on the right of the side and z - 1 on its left (C66's `near`), so a point is in a constrained domain exactly when its winding number is z; C50's domain theorem in a box turns this into covered points. A counter-clockwise polygon has z = 0, a clockwise one z = 1. | exact inputs |
| C69 | `Anywhere.v`: the unconstrained result has no holes (C16_no_holes_partial), so it covers everything the loops turn around once it covers the sides; C65's theorems without a box and the `near` facts of C66 give the covered points. `AnywhereCount.v`: the corners of the bounding box are appended to the vertices and the call is run in exact rationals; both results cover the same points with vertices at the same places (a corner of the bounding box is outside the loops, or is an end of a side), so they have as many triangles (C64), and C67 counts those of the boxed run. The box needs the grid, because its corners need not be well separated. | exact inputs; count: grid |
| C70 | `Facing.v`: near a point inside an edge of a triangle, on the far side, lies either another triangle that has the reversed edge or no triangle. `Area.v`: the triangle areas are the sum of the shoelace terms of all directed edges; paired edges cancel, so the sum over the border edges remains; for the exact filling of C66/C69 the border edges and the sides match one to one. `AreaGrid.v` applies this to the call, anywhere (C69) and in a box (C66). | exact inputs |
| C71 | `BoxArea.v`: the border edges are the reversed sides of the loops and edges along the sides of the box (as in C70). Any function of the vertices summed as end minus start over the border gives 0; taken as the area swept on the way around the box, it leaves one term, for the only edge that leaves the lower left corner along the left side. `BoxAreaGrid.v` applies this to the unconstrained call (C46) and to the loops of C68. | exact inputs in a box, one bin |
| C72 | `Used.v`: a vertex strictly inside is covered (C66, C69), and a triangle that contains a vertex has a corner at its place (C12); the corners of the loops are ends of border edges (C70). Conversely a corner is covered, so it is strictly inside or on a side, and a vertex on a side is at one of its ends. | exact inputs |
| C73 | `SpecTiles.v` defines polygons side by side; `Tiles.v`: a point linked to the right of a side of a polygon is inside this polygon (C66), and from a point inside a polygon, moved a little, one sees a side straight above; if the point is on its left, the reversed side is there too, because otherwise the points on both sides of it would be in two polygons. With C50 this gives what is covered. | exact inputs |
| C74 | `TilesArea.v`: the triangles with their center in one polygon are a mesh that covers exactly this polygon, since the segment from a point of a triangle to its center meets no constraint and the sides of the other polygons do not enter this one; so the lemmas of C70 apply to it. Each center is in exactly one polygon, so the sums over the polygons add up. | exact inputs |
| C75 | `TilesCount.v`: the triangles with their center in one polygon cover the same points as the result of the call with this polygon alone, so by the comparison of C64 both have the same number, known from C67 and C69. Each center is in exactly one polygon, so the numbers add up. | exact inputs in a box; grid inputs |
| C76 | `TilesBorder.v`: by C74 each side is a border edge of the triangles of its polygon; an edge belongs to one triangle, each triangle to one polygon, and vertices at the same place have one name in the result, so an edge and its reverse are both present exactly when both are sides, or inside one polygon. | exact inputs |
| C77 | `TypesFacts.v`: by cases on the three indices and on equalities of ids; the last part is C68 stated with `Edge::opposite`. | any index type; last part exact inputs |
| C78 | `TilesAlone.v`: inside a polygon the other polygons hide nothing (the winding number is constant along a line of sight), so a triangle of one call and an overlapping one of the other have the same circle, hence the same corners; C73 and C75 give the covering and the number. Without the condition on circles refuted by a rectangle (`WitnessFork.v`). | exact inputs; at most two crossings per side; no choice on a circle |

## Trusted base

* Coq 8.16.1's kernel, including `vm_compute` (used for the concrete cases and refutations).
* The specification files above and the model itself: that it matches the Rust code rests on
  the line citations beside every definition and on ModelTests.v.
* Axioms, as listed by `Print Assumptions` in Properties.v.  All come from the standard library:
  * none ("Closed under the global context") for C01, C02, C03, C04_zero_bins_refuted,
    C05_similarity_exact, C05_similarity_preserves, C06_output_size_dt/cdt, C07, C22, C23, C24, C26,
    C27, C28_crossing_is_meeting, C31, C33, C35_identical_vertices, C36, C37 (all), C38, C44_checker_total,
    C77 (all but C77_opposite_sides) and all `_refuted` theorems but C60_not_widest_refuted;
  * `ClassicalDedekindReals.sig_forall_dec`, `ClassicalDedekindReals.sig_not_dec`,
    `FunctionalExtensionality.functional_extensionality_dep` for C34_isometry and C44_circle_count_partial (real numbers);
  * these three and `Classical_Prop.classic` for all the others: every theorem that speaks about
    f64/f32 uses Flocq's correctness proofs of the IEEE operations, which use the real numbers.
* `coqchk`-style listings of the loaded libraries also show the opaque module fields through which
  the standard library seals its reals (`Rdefinitions.RbaseSymbolsImpl.*`, `RinvImpl.*`) and
  ssreflect's `under` tactic (`Coq.ssr.ssrunder.Under_rel.*`); they are defined there, not assumed,
  and `Print Assumptions` does not list them.
* Flocq's lemmas are checked by the kernel; no axiom of Flocq or of another library is used.
* Concrete cases: beside each theorem an `Example` in Properties.v shows inputs that meet its
  hypotheses (an integer grid with a duplicate vertex, decimal coordinates on no grid, ...).
* seeded/LOG.jsonl records the wrong programs tried against the theorems.
