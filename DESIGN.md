# Formal model of bpypolyskel: design

Source: `/repo` (python, read as text, never run). Proof assistant: Coq 8.16.1, files in
`rocq/theories` (logical name `Verif`).

## What is modelled

| Coq file | Code | Content |
|---|---|---|
| `Py.v` | — | exceptions as values, list operations, `_iterCircular*` (bpypolyskel.py:46-55) |
| `Arith.v` | mathutils.Vector | numbers and vectors, parametric in a record `arith` |
| `Euclid.v` | bpyeuclid.py (whole file) | `ccw`, `intersect`, `_intersect_line2_line2`, `Edge2`, `Ray2`, `Line2`, `fitCircle3Points` |
| `PySort.v` | CPython `sorted` | count_run + binary insertion, comparison that may raise |
| `Heapq.v` | CPython heapq | `heappush`, `heappop` |
| `Graph.v` | poly2FacesGraph.py (whole file) | graph, embedding, face tracing |
| `Lav.v` | bpypolyskel.py:57-467, 854-875 | LAV/SLAV pointer structure, events, event queue, event loop |
| `Cluster.v` | bpypolyskel.py:470-880 | crossings, ghosts, apses, clusters, dormers, `skeletonize` |
| `Poly.v` | bpypolyskel.py:882-1177 | `polygonize`: edges, heights, graph, spikes, clean-up |
| `ArithF.v` | IEEE floats | executable instance (binary64 Python floats, binary32 vectors) for witnesses |
| `ArithR.v` | — | instance over the real numbers for the geometric theorems |

Not modelled: `__init__.py` (Blender registration), printing/`__repr__`, test-suite code, the
`mathutils` C code beyond the assumptions below, Python memory/recursion limits.

### Three ways the model is used

1. Theorems quantified over *every* `arith`: no law of arithmetic is assumed, so they hold for IEEE
   floats including NaN, infinities and rounding. All structural claims are of this kind.
2. Theorems for the real instance: exact arithmetic. They say the algorithm is geometrically right; they
   do not bound rounding errors.
3. Witnesses (`_refuted`, `Example`) with the IEEE instance, by `vm_compute`.

### Modelling decisions and assumptions

- Exceptions are values (`res`). `OutOfFuel` is not a Python exception; for every inner loop it is proved
  unreachable. Only the main event loop keeps its fuel parameter: theorems about it hold for every fuel,
  and the value `Err OutOfFuel` is excluded or named in the statement.
- Python set iteration order (`faces()`) and `set.pop()` on a two-element set are oracles, universally
  quantified.
- Objects with identity (LAV vertices, LAVs) live in stores (lists); references are positions.
- mathutils assumptions (trusted, from the mathutils documentation and source): components are C floats;
  `+ - *` componentwise in C float; `dot` accumulates in double from the last component; 2D `cross` is a C
  float; `normalized` gives the zero vector for squared length <= 1e-35; `==` allows 1 ULP per component;
  a Vector is always truthy; `intersect_point_line` is Blender's `closest_to_line`.
- `sorted` for 64 or more elements merges runs in CPython; the model always uses binary insertion. The two
  agree for strict weak orders; the neighbours of one graph vertex are far fewer than 64.
- `abs(complex)` is `sqrt(re^2+im^2)` rather than `hypot`; `**2` is a product.
- `x in list` and `list.remove` compare by identity before `==`; the model compares by `==` only. The two differ only for a
  Vector that is not equal to itself (a NaN component).
- handle_dormer_event: if the two bisectors do not meet, the code stores None as a node and dies later with a
  TypeError; the model raises it immediately.
- `math`-level literals: `lit n d` is n/d. In the IEEE instance it is the correctly rounded quotient of
  the rounded numerator and denominator, which is the Python literal except possibly for 1e-35.

## Trusted base

Coq kernel; the reading of the Python code and the assumptions above; Coq standard library. Theorems over
the reals list the standard library's axioms of `Reals` (`ClassicalDedekindReals.sig_forall_dec`,
`sig_not_dec`, `functional_extensionality_dep`, and for theorems about angles `Classical_Prop.classic`); all other theorems are closed under the global context.
`Print Assumptions` is run below every property theorem.

## Plan per property

See `properties.jsonl` for the statements.

| Id | Model part | Proof plan |
|---|---|---|
| C01, C02 | `polygonize` | case analysis over all exits, any arithmetic |
| C03 | `skeletonize`, graph, spikes, clean-up | closure invariant (C19) + every later step only permutes/removes indices; needs exact vector equality |
| C04, C05 | `slope`, `skeleton_node3D` | computation; maximum of a list over the reals |
| C06 | whole `polygonize` over R | edges are translation invariant because the center of gravity is subtracted; graph angles use differences |
| C07 | whole `polygonize` | only reads of contour blocks and of appended nodes |
| C08, C09 | `prepare` | induction over blocks |
| C10, C11 | `spike_loop`, `clean_faces` | measure; multiplicity counting |
| C12, C13, C14 | `trace` | next-dart is injective on darts => orbits; invariant of the tracing loop |
| C15, C16 | `pseudoangle`, `circular_embedding` | real analysis of cos/sin; sort correctness |
| C17, C18 | `final_faces`, `add_edge` | list induction |
| C19, C20, C21, C22, C23, C24 | `Cluster.v` | invariants over arcs |
| C25, C26 | event loop | invariant over the loop |
| C27 | `walk` | pigeonhole |
| C28, C29 | `Heapq.v`, queue | heap invariant |
| C30-C33 | `next_event`, `mk_vertex`, `from_polygon` | real algebra, ring induction |
| C46 | event loop | neighbours share an edge, every vertex equidistant from its two edges |
| C34-C38, C45 | `Euclid.v` | real algebra |
| C39 | everything, triangle | symbolic run over R |
| C40 | event loop | ring invariant, potential function |
| C47 | event loop, convex contour | directions of the edges turn once around; spans of the vertices add up |
| C48 | event loop, convex contour | the wavefront is a convex polygon moving at unit speed until it is a point; the edge vanishing next always has its event in the queue |
| C49 | `polygonize`, convex footprint | skeleton as a tree with one face per wall; merging, ghosts and cleanup change nothing in general position; the faces of the graph are the faces of the tree |
| C50 | `polygonize`, convex footprint | each side of a face is the wall or lies on the line equally far from two walls; a convex polygon is a fan of triangles |
| C51 | `polygonize`, rectangle | rectangles meet the hypotheses of C49; its statement fixes nodes and faces |
| C52 | `polygonize`, footprint with an inscribed circle | every event of the wavefront is at the center; invariant on the part of the contour already linked; merging of all nodes into one; order of the walls around the center |
| C53 | `handle_edge_event`, `handle_split_event`, `handle_dormer_event` | the rings before and after each event, the new vertices, nodes and events, from the invariant of C40 |
| C54 | `polygonize`, tracing of faces, spike removal | count of each directed edge before and after; tracing by C12 and C14, removal by splitting the faces at the spike; the last pass finds nothing |
| C55 | `_SLAV.__init__`, `next_event` | a point passes the tests of the split loop iff it has the right signed distances from the edges; the construction of the point never fails for clear edges |
| C56 | `removeGhosts` | each iteration either moves one pair of links or leaves the pairs looked at so far unresolved; a permutation of links per move |
| C57 | `next_event`, `detectApses`, `fitCircle3Points` | the bisector of a straight corner is zero, the circle through three points on a line divides by zero |
| C58 | the clean-up at the end of `polygonize` | a node taken out of one face is taken out of the face beside it too; taking a vertex out of all faces keeps the border if none of its edges is on it |
| C59 | `polygonize`, every step of `skeletonize`, `circular_embedding` | every formula commutes with a rotation; the circular order of the lines at a vertex does not depend on where counting starts |
| C60 | `polygonize`, `skeletonize`, `poly2FacesGraph`, spike removal and clean-up | every step commutes with a renumbering of the vertices that keeps positions and the order relative to the first node |
| C61 | `skeletonize`, `polygonize`, clockwise convex footprints | mirror image of a convex contour; outside, on the bisector of a corner, the two walls of the corner are farther away than all other lines, so no event is accepted; a ring without spokes has no face with a node |
| C62 | the removal of adjacent identical vertices at the end of `polygonize` | counting along the list; removing an entry of the only run of a vertex takes away one doubling and leaves the others |
| C63 | `polygonize` on convex footprints that begin with different vertices | an affine function that vanishes at a roof point and is positive at the other corners of a face; the order of the corners of a convex polygon follows from their places |
| C64 | `polygonize` | every function that reads vertices gives the same when all levels are set to 0, except for the level of the nodes |
| C65 | `polygonize` on convex footprints of the same shape | distances from carried walls are scaled; roof points go to roof points; the order of the corners of a face follows from their places as in C63 |
| C66 | the assertions of the project's tests over convex footprints | both ends of a link are in the faces of its two walls; a third wall is further away at every point inside the link; so two links with a common inner point separate the same two walls, and are parallel |
| C67 | the result does not depend on the order of Python's sets | the two oracles of the graph only change the order of its keys, so the embedding is the same; C13 for the traced faces; without spikes the removal does nothing; on faces without repeated corners the clean-up commutes with reading a face from another corner; convex: the faces are explicit (C49) |
| C68 | which exceptions a call can end with | a bound on the exceptions of each function, from the inside out; the graph and the faces only hold indices of existing vertices; every walk stays in a store whose references are in range, so its fuel suffices |
| C69 | right-angled dormers | the two bisectors in coordinates along the wall; the parameters of their meeting point are (w+r-l)/2 and (w+l-r)/2, both must not be negative; C53 for the event |
| C41-C44 | helpers, pattern detection | list induction |

## Specification and proof files

| File | Content |
|---|---|
| `PolySpec.v`, `RSpec.v`, `GraphSpec.v`, `HeapSpec.v`, `LavSpec.v`, `LoopSpec.v`, `ClusterSpec.v`, `GeoSpec.v`, `AngleSpec.v`, `BisSpec.v` | vocabulary of the statements |
| `PyFacts.v`, `SortProofs.v` | list and sort lemmas |
| `GraphProofs.v`, `HeapProofs.v`, `QueueProofs.v` | graph, heap, event queue |
| `LavWalk.v`, `LavNext.v`, `LavInit.v`, `LavWf.v`, `LavRing.v`, `LavGrow.v`, `LavLoop.v`, `LoopStart.v` | LAVs and the event loop |
| `GhostProofs.v`, `MergeProofs.v`, `MergeExact.v`, `MergeR.v`, `SkeletonFacts.v` | post-processing of the skeleton |
| `PolyProofs.v`, `PolyFaces.v`, `PolyR.v`, `RoofFacts.v` | polygonize |
| `AngleProofs.v` | polar angles, pseudoangle, sorted neighbours |
| `UnitProofs.v`, `ShiftProofs.v` | unit vectors, translations |
| `BisProofs.v`, `BisLoop.v`, `BisInv.v`, `BisStart.v` | bisectors, equidistance of events and nodes |
| `GeoR.v`, `GeoLines.v` | plane geometry over the reals |
| `ArithQ.v` | instance over the rationals: computes with exact equality, for concrete cases |
| `PatSpec.v`, `PatProofs.v`, `PatEvents.v` | C42-C44: smooth runs, right-left-left-right patterns, dormer events |
| `WaveSpec.v`, `LavStep.v`, `LavSplit.v`, `LavWave.v` | C40: histories of current events, intact wavefront; one event; the whole loop |
| `WaveCases.v` | C40: a checker that runs the loop, sound for histories; witnesses |
| `ConvexSpec.v`, `ConvexGeo.v`, `ConvexLoop.v`, `ConvexCases.v` | C47: convex contours |
| `ConvexWave.v`, `ConvexMerge.v` | C48: the moving wavefront of a convex contour, two vertices unified |
| `ConvexOrder.v`, `ConvexEnd.v`, `ConvexStart.v`, `ConvexSep.v`, `ConvexRoofCases.v` | C48: the edge vanishing next has its event in the queue, invariant of the loop, start and end, order of the events |
| `RoofSpec.v`, `ConvexComb.v`, `ConvexStep.v`, `ConvexTree.v`, `ConvexPost.v`, `ConvexFaces.v`, `ConvexGraph.v`, `ConvexClean.v`, `ConvexMove.v`, `ConvexTile.v`, `ConvexPoly.v`, `WholeCases.v` | C49, C50: the tree of the skeleton, its faces, merging, graph and embedding, cleanup, translation of the footprint, `polygonize` |
| `RectSpec.v`, `RectProofs.v`, `RectCases.v` | C51: rectangles |
| `PyramidSpec.v`, `PyramidSkel.v`, `PyramidGraph.v`, `PyramidPoly.v`, `SquareProofs.v`, `PyramidCases.v` | C52: footprints with an inscribed circle |
| `StepSpec.v`, `StepProofs.v`, `StepDormer.v`, `StepCases.v` | C53: what one event does to the wavefront |
| `BorderSpec.v`, `BorderProofs.v`, `BorderCases.v` | C54: border of the faces, spike removal |
| `SplitSpec.v`, `SplitProofs.v`, `SplitCases.v` | C55: split events in the beginning |
| `GhostSpec.v`, `GhostMoves.v`, `GhostFacts.v`, `GhostCases.v` | C56: moves of links by `removeGhosts` |
| `StraightSpec.v`, `StraightProofs.v`, `StraightCases.v` | C57: vertices within straight walls |
| `CleanSpec.v`, `CleanProofs.v`, `CleanCases.v`, `PropsClean.v` | C58: the clean-up of faces |
| `SymLav.v` | the event loop under any map of vectors that keeps sums, products and lengths; used by C59 and C60 |
| `TurnSpec.v`, `TurnBase.v`, `TurnCluster.v`, `TurnRing.v`, `TurnPoly.v`, `TurnCases.v`, `PropsTurn.v` | C59: turned footprints |
| `RenumSpec.v`, `RenumLav.v`, `RenumProofs.v`, `RenumPoly.v`, `RenumCases.v`, `PropsRenum.v` | C60: footprints inside longer lists of vertices |
| `CwSpec.v`, `CwGeo.v`, `CwProofs.v`, `CwPoly.v`, `CwCases.v`, `PropsCw.v` | C61: convex footprints listed clockwise |
| `DupSpec.v`, `DupProofs.v`, `DupCases.v`, `PropsDup.v` | C62: vertices that follow themselves in a face |
| `SameSpec.v`, `SameRing.v`, `SameProofs.v`, `SameCases.v`, `PropsSame.v` | C63: all roof points are nodes; the same walls give the same roof |
| `PlanSpec.v`, `PlanProofs.v`, `PlanCases.v`, `PropsPlan.v` | C64: slopes and levels |
| `SimSpec.v`, `SimProofs.v`, `SimCases.v`, `PropsSim.v` | C65: turned, scaled, shifted and mirrored convex footprints |
| `TestSpec.v`, `TestProofs.v`, `TestData.v`, `TestCases.v`, `PropsTest.v` | C66: the assertions of the project's tests; tests of the project as data, run in the model |
| `OrderSpec.v`, `OrderProofs.v`, `OrderConvex.v`, `OrderCases.v`, `PropsOrder.v` | C67: two runs of polygonize with different set orders |
| `RaiseSpec.v`, `RaiseProofs.v`, `RaiseFuel.v`, `RaiseCases.v`, `PropsRaise.v` | C68: the exceptions a call can end with |
| `DormSpec.v`, `DormProofs.v`, `DormCases.v`, `PropsDorm.v` | C69: the event of a right-angled dormer |
| `EdgeIds.v`, `SpikeEnd.v`, `SpikeCases.v` | C09: identities of edges; C54: end of the spike removal, merged faces |
| `TriSpec.v`, `TriSkel.v`, `TriRoof.v`, `TriCases.v` | C39: the whole run for a triangle |
| `FootSpec.v`, `FootCases.v` | footprints with integer coordinates, counterexamples to C40, C46, C47 |
| `SkeletonCases.v`, `BisCases.v`, `PatCases.v` | witnesses; C42 over the reals, dormer events at the start |
| `Props*.v` | the property theorems |

## The model run on the project's own tests

The footprints in /repo/tests, tests_special and debug were turned into terms of the model (numbers as the decimal fractions written there, read to the nearest
binary64) and `polygonize` was computed on them with the binary64 instance. The assertions of the tests were evaluated on the result:
no two lines of the skeleton cross, and no face visits a vertex twice.

| directory | computed | outcome in the model | what the project says |
|---|---|---|---|
| tests | 151 of 151 | all pass | pass |
| tests_special | 22 of 22 | all pass | pass |
| debug/edge_crossing | 52 of 52 | all fail the assertion | listed as failing |
| debug/repeated_indices | 4 of 4 | all fail the assertion | listed as failing |

The largest has 286 corners. Twelve of those that pass and one that
fails are in TestData.v and are recomputed in TestCases.v on each build (C66); the others were run once and are not part of the build.
(coqchk recomputes these runs about 27 times slower than coqc: with 58 of them it did not end within its time.)
No test was found on which the model and the project's record disagree. This is evidence for the model, not a proof.

## Findings

Each is a theorem about the model, found while proving the property named.

1. C18: `Graph.edges()` lists every edge twice (`C18_edges_each_once_refuted`).
2. C21: `removeGhosts` goes through the pairs of sinks computed before any removal, so `arc.sinks.remove` can
   be called for a sink that is already gone and raises ValueError (`C21_removeGhosts_never_raises_refuted`).
3. C23: if the center of gravity of a cluster equals (`==`) the position of one of its nodes, e.g. the middle one of
   three nodes in a row, `mergeCluster` removes the links to the cluster without replacing them
   (`C23_links_always_redirected_refuted`).
4. C19: `==` of mathutils vectors tolerates 1 ULP and is not transitive. Merging can then leave a sink that is
   neither a vertex nor a node (`C19_merging_keeps_closed_ieee_refuted`); `polygonize` gives it the index -1.
5. C35: `intersect(A,B,C,D)` misses segments that only touch: with C on AB and D to the right of AB both
   orientations are "not counter-clockwise" and the result is False (`C35_touching_segments_refuted`). A positive
   answer is always right (`C35_reported_segments_meet`).
6. C46: for a right-angled reflex corner (the usual case for buildings) `bisector.v.cross(linvec)` is 1 and
   `next_event` turns `linvec` by about 0.01/|p-i| before computing the bisector of the split. The split point is then
   no longer equidistant: for the L with corners (0,0) (10,0) (10,5) (4,5) (4,10) (0,10) the first node is more than
   1/1000 away from equidistance (`C46_right_angled_corner_refuted`), while rounding accounts for about 1e-6.
7. C42: a smooth run that passes the first vertex of the contour, with six or more vertices on either side, is reported
   twice: once from vertex 0 on and once as a whole (`C42_one_center_per_run_refuted`). `nextStart` in `detectApses`
   is never advanced.
8. C43: `detectDormers` computes `facLeft` and `facRight` from `s`, which is the loop variable left over from the
   search and so the start of the last match, not of the dormer being checked (`C43_own_neighbours_refuted`).
9. C44: a dormer that contains the last vertex and the first one is detected, but `processDormers` takes its four
   events in list order instead of contour order. Such a dormer never gives a dormer event
   (`C44_dormer_events_at_start`); listing the same contour from another vertex on changes the events
   (`C44_first_vertex_matters_refuted`).
10. C40: events at the same place can cut the wavefront of a single contour in two and join the two parts again, so
   that more than n - 2 nodes are created; the extra ones lie on top of each other and are merged afterwards
   (`C40_single_contour_bound_refuted`, a stepped contour with 16 vertices and 18 nodes).
11. C40: an edge event can be handled although its two valid vertices are no longer neighbours, because a split event
   has put a new vertex between them. `handle_edge_event` does not check this
   (`C40_events_current_refuted`, a rectilinear footprint with 12 vertices; `polygonize` gives it a face with 12
   vertices that belong to several walls).
12. C40: with a dormer the wavefront can get a ring that never returns to its head; `_LAV.__iter__` then raises
   RuntimeError (`C40_no_exception_dormers_refuted`, 20 vertices, the contour given to `skeletonize` directly).
13. C46: when two collinear walls become neighbours in the wavefront the bisector is the zero vector and the roof goes
   wrong: a node 8.5 away from the wall of its face at height 2.5, with a slope of 45 degrees
   (`C46_slope_of_faces_refuted`, a rectilinear footprint with 10 vertices). A search over random rectilinear
   footprints found errors of this size in about one of ten.
14. C47: `getAllEqualDistance` takes all events within 0.001 of the first from the queue; an event caused by the first
   one of them is handled after them even if it comes before. For a convex footprint with a rounded end (9 vertices) the
   wavefront then does not vanish, the ridge is missing and two opposite walls get one face
   (`C47_face_per_wall_refuted`).
15. C53: after `handle_split_event` joined two LAVs it appends only the new LAV's head, so only the first of the two new
    vertices gets a `next_event()`; nothing is scheduled for the second one although it may have an event
    (`C53_new_vertices_scheduled_refuted`, on a quadrilateral with a hole).
16. C54: removing a spike joins the faces on its two sides, also when these belong to different walls. For a simple
    polygon with 10 corners the traced faces are one to a wall; after the removal one face contains two walls that are
    not adjacent (`C54_face_per_wall_kept_refuted`). When a strip has the same face on both sides (never met in the
    searches) one corner too many is removed from it; the theorems exclude this case (`tidy`).
17. C55: `next_event` discards an opposite edge if its line crosses the line of the vertex's own edge at a point that is
    `_approximately_equals` to the vertex. This test is relative to the distance from the origin, so that a corner 3
    above an edge and 6000 from the (centered) origin does not see the edge; the event it schedules is thousands of times
    farther away than the place where it meets the edge (`C55_narrow_neck_refuted`). In the examples tried the split
    is made up for by events of other vertices.
18. C55: for a right-angled reflex corner `next_event` adds a hundredth of the direction of the opposite edge to the
    vector along the own edge when the opposite edge lies ahead. The split point then is about 0.0025 off (a corner 2
    from a wall has moved 0.005 more than the wall), independently of the size of the building and more than the 0.001
    within which `getAllEqualDistance` takes events as simultaneous (`C55_right_angle_exact_refuted`; the bound is
    `C55_scheduled_split_is_near`).
19. C56: of two links in nearly the same direction `removeGhosts` removes both (533-534, 543-544) although only one is handed to the node
    at the nearer end, so the node can lose its connection to that node. For the heptagon (10,4), (12,4), (10,8), (8,11), (1,10), (4,7), (1,6) the skeleton falls
    into two parts and the roof has six faces; the walls 1-2 and 2-3 share one (`C56_stays_connected_refuted`,
    `ex_hepta_roof`).
20. C56: links are handed to nodes that may have been treated before, and the `break` at a pair whose nearer end is no
    node skips all later pairs; so ghosts can be left (`C56_no_ghost_left_refuted`).
21. C57: a vertex in the middle of a straight wall is no corner for `next_event`, and both parts of the wall trace one
    face together with the opposite side: for a rectangle with such a vertex the front and the back of the roof are
    one face `[3; 4; 5; 0; 1; 2; 6]` (`C57_straight_vertex_is_harmless_refuted`).
22. C57: a straight wall of seven or more parts is taken for an apse; the circle through three points on a line divides by
    zero, and `polygonize` raises `ZeroDivisionError` (`C57_straight_run_raises`, `ex_ruler_ieee`).
23. C58: the clean-up leaves triangles alone but takes flat nodes out of the faces beside them; a triangle that is flat at
    a node visited twice stays with a gap along its long side (`C58_flat_triangle_refuted`, at the level of the clean-up;
    no footprint that leads to it was found).
24. C59: nodes are merged when |dx| + |dy| < 0.1, so whether two nodes 0.08 apart become one depends on the orientation of
    the footprint: 50 x 50.078 parallel to the axes gets a pyramid, turned by acos(3/5) a ridge (`C59_any_angle_refuted`,
    double precision, exact coordinates).
25. C60: when two faces are joined, `next(x[0] for x in enumerate(...) if x[0] < firstSkelIndex and ...)` bounds the position of
    the vertex as well as its number (bpypolyskel.py:1125).  With few vertices in the list the step can raise StopIteration where
    the same faces behind other vertices are joined (`C60_joining_faces_refuted`).
26. C61: the documented order of the outer contour is counterclockwise, and nothing checks it.  A convex footprint listed clockwise
    gets an empty skeleton; with a slope `polygonize` returns normally without a face, with a height it raises ValueError from
    `max()` of an empty sequence (bpypolyskel.py:1010-1015).  An L-shaped footprint does the same in double precision (`C61_ell_run`).
27. C62: adjacent identical vertices are taken out by `face.remove(item)`, which removes the first occurrence in the face
    (bpypolyskel.py:1165-1171).  `[1, 5, 2, 5, 5, 3]` becomes `[1, 2, 5, 5, 3]`, and `[5, 5]` becomes `[]`
    (`C62_every_face_refuted`, `C62_face_kept_refuted`, at the level of the clean-up; no footprint that leads to it is known).
28. C63: for footprints that are not convex the roof depends on the vertex with which the footprint begins.  The T-shaped footprint
    (7,4) (13,4) (13,6) (0,6) (0,4) (5,4) (5,0) (7,0) gets eight faces, one for each wall; beginning with (13,4) it gets six, and one
    of them contains three walls (`C63_any_footprint_refuted`, binary64).  Bar and stem of the T are equally wide, so that events
    meet at the same distance.
29. C65: the limits for merging nodes are lengths, so the roof depends on the unit of length.  A rectangle of 17 by 16 has a ridge, the
    same rectangle with sides 17/16 and 1 a pyramid (`C65_shrunk_refuted`, binary64).
30. C65: mirroring a footprint that is not convex can change the number of its faces.  The T of finding 28 beginning with (5,4) gets six
    faces, its mirror image beginning with the same corner eight (`C65_any_mirror_image_refuted`, binary64).
31. C66: over a simple footprint with ten corners (a building in Metz, rounded to eighths of a metre) links of the skeleton cross and one
    face visits corners 10, 15 and 16 twice or more, without any exception (`C66_any_footprint_refuted`, binary64).  The project keeps
    the building, unrounded, among its known failures in `debug/edge_crossing`.
32. C67: the faces can depend on the order in which Python iterates over a set of edges. Over the footprint of
    debug/repeated_indices/test_733383913_joho.py, rounded to 1/256, taking the first or the last edge of the set gives a face of 12 or of 13
    corners, because the removal of spikes looks at the faces in the order in which they were found (`C67_any_footprint_refuted`, binary64).
33. C68: a simple footprint with eight corners makes polygonize raise a TypeError: (3,8) (5,8) (5,0) (6,0) (6,6) (11,6) (11,10) (3,10).
    The walls (5,8)-(5,0)-(6,0)-(6,6) are taken for a dormer. Its sides have different lengths, so the bisectors of its two inner corners do
    not meet, `v_prev.bisector.intersect(v_next.bisector)` is None, and mergeNodeClusters iterates over None (`C68_simple_refuted`, binary64).
    Of random simple rectilinear footprints with 8 to 12 corners on a grid of 30 x 30 about one in 200 does this.  (483 of about
    95 000, counted once with the model extracted to OCaml, with native floats; that run is not part of the build and proves nothing.)
34. C69: for the event of a right-angled dormer this happens exactly if the sides differ by more than the width (detectDormers only
    accepts dormers less than 10 wide with |l^2-r^2| < 0.35 (l^2+r^2), so others get no such event). If they differ by less, there is no
    exception, but the node of the valley is not equally far from the walls on its two sides, and its height is the mean of the two
    distances in the event (`C69_dormer_event`, `C69_valley`, exact arithmetic).
35. C69: the node of the valley can be at a wrong level even if the sides are equally long. Over a house of 30 by 20 with a dormer 3 wide
    and 2 deep, slope 1, the node at (11.5, 1.5) is 1.5 away from the walls beside it, but polygonize puts it at the level 5.75
    (`C69_height_refuted`, binary64): handle_dormer_event takes the mean of the distances of the two split events. Here they
    sum to 11.5, not to twice 1.5.
