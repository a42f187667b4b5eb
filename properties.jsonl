{"id": "C01", "title": "polygonize only appends to verts", "statement": "Whatever polygonize does (return or raise), the vertices the caller already had in verts keep their positions and values; verts either stays as it was or gets extended at its end, and whenever polygonize returns it is extended by exactly one vertex per skeleton node, in skeleton order, with the node's x,y moved back to the caller's coordinates.", "quantifier": "all verts lists, index ranges, holes, heights, unit vectors, arithmetic and set-iteration schedules; every exception point", "why_tests_cant": "A test sees one input and one exit; mesh corruption of earlier vertices or a half-done extension can hide at any exception point.", "anchors": ["bpypolyskel/bpypolyskel.py: polygonize (lines 1017-1022)"]}
{"id": "C02", "title": "polygonize only appends to faces, and only on success", "statement": "If faces is None a fresh list holding just the new faces is returned; otherwise the caller's list is extended at its end by exactly the faces a call with faces=None returns and that same list is the result. If polygonize raises, the caller's faces list is unchanged.", "quantifier": "all inputs and all exception points", "why_tests_cant": "Needs every exit of a 300-line function, including the exceptional ones.", "anchors": ["bpypolyskel/bpypolyskel.py: polygonize (lines 1173-1177)"]}
{"id": "C03", "title": "Face indices are valid", "statement": "Every index in every face polygonize adds is the index of a vertex of the footprint (outer contour or hole) or of one of the appended skeleton nodes: never negative (the internal error marker -1 never reaches a face), never beyond the end of verts.", "quantifier": "all inputs with non-negative block starts and non-empty blocks for which polygonize returns, every schedule (exact vector equality)", "why_tests_cant": "The error marker -1 is a legal Python index, so a violation is silent; it depends on an invariant across event handling, clustering and ghost removal.", "anchors": ["bpypolyskel/bpypolyskel.py: polygonize (lines 1036-1050)", "bpypolyskel/bpypolyskel.py: mergeCluster", "bpypolyskel/bpypolyskel.py: removeGhosts"]}
{"id": "C04", "title": "Roof heights are proportional to skeleton heights", "statement": "Every appended node has z = zBase + (node height) * slope, where zBase is the z of the first contour vertex and slope is tan if height is 0, else height divided by the largest node height; height takes precedence over tan; with both zero every node lies at zBase.", "quantifier": "all footprints and all values of height and tan", "why_tests_cant": "Relation between two outputs for every input, not a single value.", "anchors": ["bpypolyskel/bpypolyskel.py: polygonize (lines 1012-1020)"]}
{"id": "C05", "title": "The ridge is exactly at the requested height", "statement": "With a positive height, no appended node is higher than zBase+height and at least one is exactly there (exact arithmetic).", "quantifier": "all footprints for which polygonize returns, all positive heights", "why_tests_cant": "Universal over nodes and existential at once; depends on the max being taken over all nodes.", "anchors": ["bpypolyskel/bpypolyskel.py: polygonize (lines 1012-1016)"]}
{"id": "C06", "title": "Translation equivariance", "statement": "Moving the whole vertex list by a horizontal or vertical offset moves every appended node by the same offset and changes no face (exact arithmetic).", "quantifier": "all inputs, all offsets, all schedules", "why_tests_cant": "A relation between two runs for every offset.", "anchors": ["bpypolyskel/bpypolyskel.py: polygonize (lines 957-965, 1017-1020)", "bpypolyskel/bpyeuclid.py: Edge2.__init__"]}
{"id": "C07", "title": "Unrelated vertices do not matter", "statement": "Entries of verts that belong neither to the outer contour nor to a hole influence neither the appended nodes nor the faces.", "quantifier": "all pairs of verts lists of equal length that agree on the contour blocks", "why_tests_cant": "Non-interference is a property of pairs of runs.", "anchors": ["bpypolyskel/bpypolyskel.py: polygonize"]}
{"id": "C08", "title": "Supplying the unit vectors is equivalent to omitting them", "statement": "Passing the list of the unit vectors of the edges (outer contour first, then the holes in order) gives the same outcome as passing None, for edges whose squared length exceeds 1e-35 (exact arithmetic).", "quantifier": "all footprints with any number of holes of any sizes", "why_tests_cant": "The index bookkeeping across holes must be right for every combination of sizes.", "anchors": ["bpypolyskel/bpypolyskel.py: polygonize (lines 968-1001)", "bpypolyskel/bpyeuclid.py: Edge2.__init__"]}
{"id": "C09", "title": "Contours handed to the skeleton are the caller's contours", "statement": "For a contour block (first, n) with n >= 1 the edges used are exactly first->first+1->...->first+n-1->first, each ending where the next begins, carrying the indices of its end points, shifted by the center of gravity. All edges of all contours are different objects.", "quantifier": "all block positions and sizes, all holes", "why_tests_cant": "Off-by-one and wrap-around for every n and every offset.", "anchors": ["bpypolyskel/bpypolyskel.py: polygonize (lines 967-1001)"]}
{"id": "C10", "title": "Spike removal always terminates", "statement": "The spike-removal loop of polygonize finishes after at most as many removals as there are vertex entries in the faces, on every list of faces and every vertex list; it never grows the faces' total length.", "quantifier": "all lists of faces (well-formed or not), all vertex positions, all arithmetic", "why_tests_cant": "Termination of a while loop with restart cannot be tested exhaustively.", "anchors": ["bpypolyskel/bpypolyskel.py: polygonize (lines 1058-1137)"]}
{"id": "C11", "title": "Face clean-up never loses a footprint vertex and never raises on removal", "statement": "The parallel-edge clean-up removes from a face only skeleton nodes that occur in fewer than three face corners, keeps the order of the remaining vertices, keeps every footprint vertex of every face (with multiplicity), never fails to find the vertex it removes, and leaves triangles untouched.", "quantifier": "all lists of faces and vertex positions", "why_tests_cant": "Removal happens while reasoning about a changing list; multiplicities matter.", "anchors": ["bpypolyskel/bpypolyskel.py: polygonize (lines 1139-1171)"]}
{"id": "C12", "title": "Face tracing partitions the directed edges", "statement": "For every graph built by add_edge without parallel edges and every circular embedding that lists each vertex' neighbours once, faces() terminates, does not raise, and every directed edge occurs in exactly one traced face, exactly once.", "quantifier": "all simple graphs, all rotation systems, all set-iteration orders", "why_tests_cant": "Combinatorial statement about all graphs and all iteration orders.", "anchors": ["bpypolyskel/poly2FacesGraph.py: poly2FacesGraph.faces", "bpypolyskel/poly2FacesGraph.py: poly2FacesGraph.edges"]}
{"id": "C13", "title": "Faces do not depend on Python's set order", "statement": "For such a graph and embedding, two runs of faces() with different set-iteration orders return the same faces up to the order of the list and the vertex each face starts with; a face with exactly one footprint edge is returned identically.", "quantifier": "all pairs of schedules", "why_tests_cant": "Hash order cannot be enumerated by tests.", "anchors": ["bpypolyskel/poly2FacesGraph.py: poly2FacesGraph.faces (lines 81-100)"]}
{"id": "C14", "title": "Traced faces are closed walks following the rotation", "statement": "In every traced face consecutive edges are connected, the walk closes, and after arriving at v from u the next vertex is the successor of u in the circular order at v.", "quantifier": "all simple graphs and embeddings", "why_tests_cant": "Holds per step for every graph.", "anchors": ["bpypolyskel/poly2FacesGraph.py: poly2FacesGraph.faces (lines 87-105)"]}
{"id": "C15", "title": "pseudoangle is monotone in the true angle", "statement": "For non-zero difference vectors, pseudoangle lies in [0,4) and orders vectors exactly as their polar angle in [0,2*pi) does; it depends only on the direction; it raises only for the zero vector.", "quantifier": "all pairs of plane vectors (exact arithmetic)", "why_tests_cant": "Continuum of vectors.", "anchors": ["bpypolyskel/poly2FacesGraph.py: pseudoangle"]}
{"id": "C16", "title": "circular_embedding sorts neighbours clockwise", "statement": "For every vertex with neighbours in pairwise different directions, direction='CCW' yields a permutation of its neighbours in strictly decreasing polar angle, 'CW' the reverse; so the next neighbour used when tracing is the next one clockwise with no other neighbour in between.", "quantifier": "all graphs and vertex positions (exact arithmetic)", "why_tests_cant": "Sort correctness for every list and comparator.", "anchors": ["bpypolyskel/poly2FacesGraph.py: circular_embedding", "bpypolyskel/poly2FacesGraph.py: compare_angles"]}
{"id": "C17", "title": "Filtering and rotation of faces", "statement": "faces() returns exactly the traced faces that contain a skeleton node (those with only footprint vertices are dropped), each as its cyclic vertex sequence; if a face has an edge between two footprint vertices, the returned face starts with such an edge.", "quantifier": "all lists of traced faces", "why_tests_cant": "For all lists, positions and index bounds.", "anchors": ["bpypolyskel/poly2FacesGraph.py: poly2FacesGraph.faces (lines 111-123)"]}
{"id": "C18", "title": "The graph is symmetric and loop-free", "statement": "After any sequence of add_edge calls, b is listed at a exactly as often as a at b, namely the number of added edges {a,b}; no vertex is its own neighbour; the choice made by set.pop() does not matter.", "quantifier": "all sequences of edges", "why_tests_cant": "History property.", "anchors": ["bpypolyskel/poly2FacesGraph.py: poly2FacesGraph.add_edge", "bpypolyskel/poly2FacesGraph.py: poly2FacesGraph.add_vertex"]}
{"id": "C19", "title": "Every skeleton edge ends at a footprint vertex or at another node", "statement": "In the list skeletonize returns, every sink of every node is equal to a vertex of the input contours or to the source of a node of the list (exact vector equality).", "quantifier": "all contours for which skeletonize returns (exact vector equality; refuted for the 1-ULP equality of mathutils)", "why_tests_cant": "Invariant of the event loop, cluster merging and ghost removal.", "anchors": ["bpypolyskel/bpypolyskel.py: skeletonize", "bpypolyskel/bpypolyskel.py: mergeCluster", "bpypolyskel/bpypolyskel.py: mergeNodeClusters", "bpypolyskel/bpypolyskel.py: removeGhosts"]}
{"id": "C20", "title": "removeGhosts keeps the nodes", "statement": "removeGhosts changes neither number, order, sources nor heights of the nodes; it creates no new end point: every sink afterwards was a sink before.", "quantifier": "all skeletons, all arithmetic", "why_tests_cant": "Universal over inputs of an in-place algorithm.", "anchors": ["bpypolyskel/bpypolyskel.py: removeGhosts"]}
{"id": "C21", "title": "removeGhosts terminates", "statement": "The while loop of removeGhosts runs at most once per sink of the node plus one, for every skeleton (whatever the float comparisons answer). (It can raise: see the refutation.)", "quantifier": "all skeletons, all arithmetic", "why_tests_cant": "Termination.", "anchors": ["bpypolyskel/bpypolyskel.py: removeGhosts (lines 505-546)"]}
{"id": "C22", "title": "Cluster merging terminates in a state with nothing left to merge", "statement": "mergeNodeClusters ends after at most as many merges as there are nodes; in its result findClusters finds no cluster any more.", "quantifier": "all skeletons and contours, all arithmetic", "why_tests_cant": "Termination and a post-condition over all pairs of nodes.", "anchors": ["bpypolyskel/bpypolyskel.py: mergeNodeClusters", "bpypolyskel/bpypolyskel.py: findClusters"]}
{"id": "C23", "title": "A merged cluster is replaced by its center of gravity", "statement": "mergeCluster removes exactly the clustered nodes and appends one node at the mean of their sources with the mean of their heights, whose sinks are the distinct sinks of the cluster that lead outside it; every other node keeps its place, source and height, and its sinks that led into the cluster now lead, once, to the new node, provided the new position is not itself one of the merged positions. (Without that proviso the redirection is refuted: the links are lost.)", "quantifier": "all skeletons and non-empty clusters whose positions no other node shares (exact vector equality)", "why_tests_cant": "In-place redirect with deletions by index must be right for every pattern.", "anchors": ["bpypolyskel/bpypolyskel.py: mergeCluster"]}
{"id": "C24", "title": "Nodes at identical positions are united", "statement": "After the first step of mergeNodeClusters no two nodes have the same coordinates; the set of node positions is unchanged; the sinks at each position are the union of the sinks of the nodes that were there, and the first node's height is kept.", "quantifier": "all skeletons (exact vector equality)", "why_tests_cant": "Universal over lists with repeated positions.", "anchors": ["bpypolyskel/bpypolyskel.py: mergeNodeClusters (lines 678-693)"]}
{"id": "C25", "title": "A node's height is its distance to a footprint edge", "statement": "Every node created by an edge or split event has as height the distance from its position to the line through an edge of the input contours.", "quantifier": "all contours, every reachable state of the event loop, all arithmetic", "why_tests_cant": "Invariant over the event history.", "anchors": ["bpypolyskel/bpypolyskel.py: _LAVertex.next_event", "bpypolyskel/bpypolyskel.py: _SLAV.handle_edge_event", "bpypolyskel/bpypolyskel.py: _SLAV.handle_split_event"]}
{"id": "C26", "title": "Heights are never negative", "statement": "All node heights returned by skeletonize are >= 0 (exact arithmetic); hence for tan >= 0 (or height >= 0) no roof vertex is below the base.", "quantifier": "all contours", "why_tests_cant": "Invariant through the loop, averaging of dormers and clusters.", "anchors": ["bpypolyskel/bpypolyskel.py: skeletonize", "bpypolyskel/bpyeuclid.py: Line2.distance"]}
{"id": "C27", "title": "Iterating a LAV never hangs", "statement": "Iteration over a LAV stops after at most as many steps as there are vertices, for every configuration of the next pointers: it either returns the cycle through the head or raises RuntimeError; it returns normally exactly when the head lies on a cycle.", "quantifier": "all pointer structures, including corrupted ones", "why_tests_cant": "The test suite has one example of a corrupted list; the claim is about all.", "anchors": ["bpypolyskel/bpypolyskel.py: _LAV.__iter__"]}
{"id": "C28", "title": "The event queue yields events in order of distance", "statement": "After any sequence of insertions and removals the queue returns an event of least distance, loses and duplicates nothing (total order on distances).", "quantifier": "all histories of put/get operations", "why_tests_cant": "All operation sequences.", "anchors": ["bpypolyskel/bpypolyskel.py: _EventQueue.put", "bpypolyskel/bpypolyskel.py: _EventQueue.put_all", "bpypolyskel/bpypolyskel.py: _EventQueue.get"]}
{"id": "C29", "title": "A batch is exactly the events within 0.001 of the nearest one", "statement": "getAllEqualDistance returns a least event followed by all and only the events whose distance is within 0.001 of it, in non-decreasing order; all others stay in the queue.", "quantifier": "all queue contents (exact arithmetic)", "why_tests_cant": "All queue contents.", "anchors": ["bpypolyskel/bpypolyskel.py: _EventQueue.getAllEqualDistance"]}
{"id": "C30", "title": "A vertex schedules its nearest candidate event", "statement": "next_event returns an event iff there is a candidate; the event returned is one of the candidates and no candidate is nearer to the vertex; a convex vertex never schedules a split event.", "quantifier": "all wavefront states", "why_tests_cant": "Minimality over all candidates.", "anchors": ["bpypolyskel/bpypolyskel.py: _LAVertex.next_event"]}
{"id": "C31", "title": "Bisectors run at equal distance from both edges, into the polygon", "statement": "Every point of the bisector ray of a contour vertex has the same signed distance to the lines of its two edges, and that distance is >= 0, i.e. the ray runs on the interior (left) side, for convex and reflex vertices alike.", "quantifier": "all pairs of edges with unit directions (exact arithmetic)", "why_tests_cant": "Continuum of geometric configurations.", "anchors": ["bpypolyskel/bpypolyskel.py: _LAVertex.__init__"]}
{"id": "C32", "title": "An edge event is equidistant from its three edges", "statement": "If two neighbouring vertices are each equidistant from their own two edges, the edge event between them lies at the same distance from all three edges, that distance is the event's distance, and the vertex created there is again equidistant from its two edges.", "quantifier": "all configurations (exact arithmetic)", "why_tests_cant": "Continuum; inductive over the wavefront history.", "anchors": ["bpypolyskel/bpypolyskel.py: _LAV.unify", "bpypolyskel/bpypolyskel.py: _LAVertex.next_event (lines 196-202)"]}
{"id": "C33", "title": "The initial wavefront is the contour", "statement": "For every list of non-empty contours, _SLAV builds one LAV per contour: a ring through the contour's vertices in order, with consistent next/prev links, correct length, correct edges, and all vertices valid.", "quantifier": "all contours of all lengths", "why_tests_cant": "Pointer structure for every n, including 1 and 2.", "anchors": ["bpypolyskel/bpypolyskel.py: _LAV.from_polygon", "bpypolyskel/bpypolyskel.py: _SLAV.__init__"]}
{"id": "C34", "title": "Line and ray intersection is sound and complete", "statement": "_intersect_line2_line2 returns P iff the two directions are not parallel and P is the point common to both objects (line: any parameter, ray: parameter >= 0).", "quantifier": "all pairs of lines and rays (exact arithmetic)", "why_tests_cant": "Continuum.", "anchors": ["bpypolyskel/bpyeuclid.py: _intersect_line2_line2", "bpypolyskel/bpyeuclid.py: Ray2", "bpypolyskel/bpyeuclid.py: Line2"]}
{"id": "C35", "title": "Segment intersection test", "statement": "If intersect(A,B,C,D) is true the segments AB and CD have a common point; for four points no three of which are collinear the converse holds too. (The converse is refuted for touching segments.)", "quantifier": "all quadruples in general position (exact arithmetic)", "why_tests_cant": "Continuum.", "anchors": ["bpypolyskel/bpyeuclid.py: intersect", "bpypolyskel/bpyeuclid.py: ccw"]}
{"id": "C36", "title": "Line2.distance is the distance to the line", "statement": "For a non-degenerate line the value returned is the least distance from the point to any point of the line.", "quantifier": "all lines and points (exact arithmetic)", "why_tests_cant": "Minimum over a continuum.", "anchors": ["bpypolyskel/bpyeuclid.py: Line2.distance"]}
{"id": "C37", "title": "fitCircle3Points returns the circumcircle", "statement": "For a list whose first, middle and last points are not collinear the center returned has distance R from all three; otherwise ZeroDivisionError is raised.", "quantifier": "all point lists (exact arithmetic)", "why_tests_cant": "Continuum.", "anchors": ["bpypolyskel/bpyeuclid.py: fitCircle3Points"]}
{"id": "C38", "title": "checkEdgeCrossing counts proper crossings", "statement": "The result is the number of unordered pairs of skeleton edges that are not parallel and meet at an interior point of both (parameters strictly between EPSILON and 1-EPSILON).", "quantifier": "all skeletons (exact arithmetic)", "why_tests_cant": "All pairs of edges of all skeletons.", "anchors": ["bpypolyskel/bpypolyskel.py: checkEdgeCrossing"]}
{"id": "C39", "title": "Triangles get the exact roof", "statement": "For every counterclockwise triangle skeletonize returns one node: the incenter, with the inradius as height, connected to the three vertices; polygonize appends that one vertex and returns the three faces (edge, apex), each starting with its footprint edge (exact arithmetic).", "quantifier": "all counterclockwise triangles whose sides are long enough for mathutils to normalize (squared length above 1e-35), at any position in verts, all heights/slopes, all schedules", "why_tests_cant": "Full functional correctness over a 6-dimensional continuum.", "anchors": ["bpypolyskel/bpypolyskel.py: skeletonize", "bpypolyskel/bpypolyskel.py: polygonize"]}
{"id": "C40", "title": "Wavefront integrity and node count", "statement": "For contours of at least three edges with different start points and without dormers, as long as every edge event that is handled concerns vertices that are still neighbours: each active LAV is a ring of at least three valid vertices with consistent links, shared edges, head and length, and no other vertex is valid; no exception is raised while handling events; the number of nodes so far plus the sum of (ring length - 2) is the sum of (n_k - 2) over the contours plus 4 per join of two LAVs. So a single contour with n vertices gives at most n-2 nodes if no LAVs are joined, exactly n-2 once the wavefront has vanished. If the number of joins is bounded the event loop ends without exception after a bounded number of rounds. Without the condition on joins the bound n-2 is false.", "quantifier": "all event histories of that kind, all arithmetic", "why_tests_cant": "Invariant over event histories.", "anchors": ["bpypolyskel/bpypolyskel.py: _LAV.unify", "bpypolyskel/bpypolyskel.py: _SLAV.handle_edge_event", "bpypolyskel/bpypolyskel.py: _SLAV.handle_split_event"]}
{"id": "C41", "title": "Circular iteration helpers", "statement": "_iterCircularPrevNext yields for every i the pair (element i-1, element i) cyclically, _iterCircularPrevThisNext the triple (i-1,i,i+1); both raise ValueError exactly for the empty list.", "quantifier": "all lists", "why_tests_cant": "All lengths including 0, 1, 2.", "anchors": ["bpypolyskel/bpypolyskel.py: _iterCircularPrevNext", "bpypolyskel/bpypolyskel.py: _iterCircularPrevThisNext"]}
{"id": "C42", "title": "Apse detection finds the long smooth runs", "statement": "detectApses returns None iff all turns are smooth (|sin| < 0.5) or no cyclic run of six consecutive smooth turns exists. Otherwise it returns one center per run of at least six smooth turns that cannot be extended, where a run may also start at the first vertex of the contour. Each center has the same distance from the first, the middle and the last vertex of its run; ZeroDivisionError is raised only if these three are collinear.", "quantifier": "all contours", "why_tests_cant": "Cyclic regular-expression matching over all sequences.", "anchors": ["bpypolyskel/bpypolyskel.py: detectApses"]}
{"id": "C43", "title": "Dormer detection only reports right-left-left-right turns", "statement": "Every dormer reported by detectDormers is four cyclically consecutive contour vertices with turns R,L,L,R, its base is shorter than 10, its side lengths are similar and the neighbouring walls are long enough; reported dormers share no vertex; every such pattern that does not touch another one is reported, unless the patterns cover the whole contour.", "quantifier": "all contours", "why_tests_cant": "All turn sequences, wrap-around.", "anchors": ["bpypolyskel/bpypolyskel.py: detectDormers"]}
{"id": "C44", "title": "Dormer processing loses no event", "statement": "processDormers replaces, for each dormer it accepts, exactly the events of the dormer's four vertices by one dormer event; every other initial event is kept in order and is in the queue when the event loop starts. A dormer is accepted iff its events in list order are split, edge, any, split.", "quantifier": "all event lists and dormers", "why_tests_cant": "All index patterns.", "anchors": ["bpypolyskel/bpypolyskel.py: processDormers"]}
{"id": "C45", "title": "Approximate comparisons are symmetric and reflexive", "statement": "robustFloatEqual(a,b) holds iff |a-b| <= EPSILON*max(1,|a|,|b|); _approximately_equals(a,b) holds iff |a-b| <= 0.001*max(|a|,|b|); both are reflexive and symmetric (exact arithmetic).", "quantifier": "all numbers and vectors", "why_tests_cant": "Continuum.", "anchors": ["bpypolyskel/bpypolyskel.py: robustFloatEqual", "bpypolyskel/bpypolyskel.py: _approximately_equals"]}
{"id": "C46", "title": "Skeleton nodes are equidistant from three edges", "statement": "For closed contours without dormers whose reflex corners are not within EPSILON of a right angle (and keep clear of intersections closer than 1e-17.5), every node the event loop has created is at the same signed distance from three different contour edges and its height is that distance, as long as no vertex created by an event is reflex. With a right-angled reflex corner it fails: the node of a split event is displaced by about a hundredth over the distance.", "quantifier": "all contours and all event histories of that kind (exact arithmetic); one IEEE counterexample", "why_tests_cant": "Continuum of contours, induction over the event history.", "anchors": ["bpypolyskel/bpypolyskel.py: _LAVertex.next_event", "bpypolyskel/bpypolyskel.py: _SLAV.handle_edge_event", "bpypolyskel/bpypolyskel.py: _SLAV.handle_split_event"]}
{"id": "C47", "title": "Convex contours give only edge events", "statement": "For a strictly convex contour in exact arithmetic the event loop creates and handles only edge events between neighbouring vertices, no vertex of the wavefront is ever reflex, no LAVs are split or joined, every node is equidistant from three edges, and the skeleton is computed without exception in at most 3n-4 rounds with at most n-2 nodes. It need not be complete: because events within 0.001 of each other are taken from the queue together, a convex footprint exists for which the wavefront does not vanish and two walls share a face.", "quantifier": "all strictly convex contours, all states of the event loop (exact arithmetic); one IEEE counterexample to completeness", "why_tests_cant": "Continuum of contours and induction over the event history; the counterexample needs several events within the tolerance.", "anchors": ["bpypolyskel/bpypolyskel.py: _LAVertex.next_event", "bpypolyskel/bpypolyskel.py: _LAV.unify", "bpypolyskel/bpypolyskel.py: _EventQueue.getAllEqualDistance", "bpypolyskel/bpypolyskel.py: skeletonize"]}
{"id": "C48", "title": "The skeleton of a convex contour is complete and exact", "statement": "For a strictly convex contour of n edges in exact arithmetic, if the event loop handles the events that are not skipped in the order of their distances, the skeleton is computed without exception and has exactly n-2 nodes; the height of every node is its distance from three edges, and no edge is nearer, so all the nodes lie on the roof (the lower envelope of the planes through the walls). The order is guaranteed if the distances at which three edges can meet are equal or differ by at least 0.001, the tolerance of getAllEqualDistance.", "quantifier": "all strictly convex contours with separated meeting distances, all amounts of fuel above 3n-4 (exact arithmetic)", "why_tests_cant": "Continuum of contours of any size; the order of events within and across batches is an induction over the event history.", "anchors": ["bpypolyskel/bpypolyskel.py: _LAVertex.next_event", "bpypolyskel/bpypolyskel.py: _SLAV.handle_edge_event", "bpypolyskel/bpypolyskel.py: _LAV.unify", "bpypolyskel/bpypolyskel.py: _EventQueue.getAllEqualDistance", "bpypolyskel/bpypolyskel.py: skeletonize"]}
{"id": "C49", "title": "polygonize builds the hip roof of a convex footprint", "statement": "For a strictly convex footprint of n walls without holes, in general position and in exact arithmetic, polygonize raises no exception. It appends exactly n-2 nodes to verts, at different places; each node stands over a point that has three nearest walls, at the level of the first footprint vertex plus the slope times the distance of these walls. The slope is tan, or, if a height is given, the one for which the highest node rises by that height. Exactly n faces are returned (and appended to faces if given), one for each wall: the face starts with the two ends of the wall, its other corners are precisely the nodes to which no other wall is nearer, no corner is repeated and every corner turns left. General position means: meeting distances differ by at least 0.001 or are equal, no four walls meet in one roof point, roof points are at least 0.1 apart, and turns between ridge directions are not sharper than the spike and cluster tolerances allow.", "quantifier": "all strictly convex footprints in general position at any place of any mesh, all heights and slopes, all set iteration orders (exact arithmetic)", "why_tests_cant": "Continuum of footprints of any size; the claim connects preparation, event loop, merging, graph faces, spike removal and cleanup.", "anchors": ["bpypolyskel/bpypolyskel.py: polygonize", "bpypolyskel/bpypolyskel.py: skeletonize", "bpypolyskel/bpypolyskel.py: mergeNodeClusters", "bpypolyskel/poly2FacesGraph.py: poly2FacesGraph.faces"]}
{"id": "C50", "title": "The faces of a convex roof cover the footprint exactly", "statement": "For a convex footprint as in C49, a point of the plane lies under the face of a wall exactly if it is inside the footprint and no wall is nearer to it. So every point of the footprint is under some returned face, no point outside the footprint is, and a point under two faces is equally far from their walls: the faces cover the footprint without gaps and overlap only along ridges. The nodes of each face lie in the plane that rises from the wall with the slope of the roof.", "quantifier": "all strictly convex footprints in general position at any place of any mesh, all points of the plane, all heights and slopes, all set iteration orders (exact arithmetic)", "why_tests_cant": "Continuum of footprints and of points; tests sample neither.", "anchors": ["bpypolyskel/bpypolyskel.py: polygonize", "bpypolyskel/bpypolyskel.py: skeletonize", "bpypolyskel/poly2FacesGraph.py: poly2FacesGraph.faces"]}
{"id": "C51", "title": "A rectangle gets a hip roof with a ridge", "statement": "For a rectangle of any position and direction, at least 0.1 longer than wide, polygonize in exact arithmetic appends exactly two nodes, over the middle line and half the width away from the short walls, both at the given height (or slope times half the width) above the first vertex, and returns four faces: triangles over the short walls and quadrilaterals over the long walls, each starting with its wall and counterclockwise.", "quantifier": "all rectangles with length at least width + 0.1, all indices, heights, slopes, set iteration orders (exact arithmetic)", "why_tests_cant": "Continuum of sizes and directions.", "anchors": ["bpypolyskel/bpypolyskel.py: polygonize", "bpypolyskel/bpypolyskel.py: skeletonize"]}
{"id": "C52", "title": "A footprint with an inscribed circle gets a pyramid", "statement": "For a strictly convex footprint without holes all walls of which are equally far from one point x (a square, a rhombus, every regular polygon, every triangle), polygonize in exact arithmetic raises no exception, appends exactly one node, over x, at the given height (or slope times that distance) above the first vertex, and returns one triangle per wall, which starts with the wall and ends in the node. All events of the wavefront coincide there; they are merged into one node with each contour vertex linked to it once.", "quantifier": "all strictly convex footprints with an inscribed circle, any number of walls, any angles, all indices, heights, slopes, set iteration orders (exact arithmetic)", "why_tests_cant": "Continuum of shapes; in floating point the coincidence of all events is only approximate, so tests see the merging of near nodes instead.", "anchors": ["bpypolyskel/bpypolyskel.py: polygonize", "bpypolyskel/bpypolyskel.py: skeletonize", "bpypolyskel/bpypolyskel.py: mergeNodeClusters", "bpypolyskel/poly2FacesGraph.py: poly2FacesGraph.circular_embedding"]}
{"id": "C53", "title": "What every event does to the wavefront", "statement": "As long as the events are current, each event of the event loop does exactly one of seven things to the rings of the wavefront: nothing because one of its vertices is gone; nothing because a split event meets its opposite edge nowhere; the last three vertices of a ring meet in a peak with these three as sinks; two neighbours are replaced by one vertex at the intersection point, between the outer edges of the two; a vertex cuts its own ring in two at the opposite edge, between the two neighbours whose bisectors enclose the point, where parts of one or two vertices vanish and leave their vertex as a sink; or a vertex joins its ring with another one. Each new vertex has the bisector of its two edges, the node appended is at the point and distance of the event, the events added are the next events of the new vertices, no old vertex moves or changes its edges and no other ring changes. A dormer event takes the four dormer vertices out of their ring and appends two nodes. Refuted: every new vertex that has a next event gets one scheduled; after a join only the first of the two new vertices does.", "quantifier": "all contours with at least three vertices and distinct starting points, all reachable states with a current event; dormer events in all consistent wavefronts (every arithmetic)", "why_tests_cant": "Intermediate wavefronts are not visible from outside, and joins only occur with holes; a vertex that nothing looks after changes the roof only if its event would have been the next one.", "anchors": ["bpypolyskel/bpypolyskel.py: _SLAV.handle_edge_event", "bpypolyskel/bpypolyskel.py: _SLAV.handle_split_event", "bpypolyskel/bpypolyskel.py: _SLAV.handle_dormer_event", "bpypolyskel/bpypolyskel.py: _LAV.unify", "bpypolyskel/bpypolyskel.py: skeletonize"]}
{"id": "C54", "title": "Spike removal keeps the border of the roof", "statement": "Before spikes are removed the faces have no gap: every edge that touches a node is used in both directions equally often, and if every wall has a face on its inner side only, the border of the faces is the footprint and their areas in plan add up to its area. Each pass of the spike removal takes away exactly one spike (a corner t of a face with more than three corners at which the face turns back within the threshold): a strip, whose face loses t and whose neighbours on both sides become one face, or a line to t and back, which is dropped. As long as the faces are tidy (no directed edge twice, no corner of the spike visited twice by one face) the border and the area in plan stay what they were. The removal ends only when every face with more than three corners has no spike or has one with no face on one of its sides; if the faces have no gap, such a spike is a vertex of the footprint and runs along a wall. A merged face is the ring around both faces, read from its first vertex of the footprint on; StopIteration is raised if there is none among the first firstSkelIndex corners. Refuted: a roof with one face per wall still has one face per wall after spike removal.", "quantifier": "all lists of faces, vertices and indices; all graphs without parallel edges, all embeddings, all set iteration orders (every arithmetic); the refutation is a simple polygon with 10 corners in IEEE doubles", "why_tests_cant": "Spikes appear in about one of a hundred random polygons; whether the faces still close without gaps is not compared by any test.", "anchors": ["bpypolyskel/bpypolyskel.py: polygonize", "bpypolyskel/poly2FacesGraph.py: poly2FacesGraph.faces"]}
{"id": "C55", "title": "Split events are where a reflex corner meets a moving edge", "statement": "When a corner of the footprint schedules a split event in the beginning, the corner is reflex, the edge is not one of the two at the corner, corner and edge have moved inwards by the same distance (the distance of the event) when they meet, and the place is in front of the edge and between the bisectors at its two ends, up to EPSILON. For right-angled corners the corner may have moved by a fraction 1/(50 r) more than the edge, where r is the distance at which lines of walls cross those of the corner's own walls; exactness is refuted for them. Conversely the event that a reflex corner schedules is never farther from the corner than a place where it meets an edge in this way (for right-angled corners: an edge whose line does not cross those of the corner's walls ahead of it). Refuted when the line of the edge crosses the line of one of the corner's own edges within a thousandth of the size of the coordinates: such meetings are discarded.", "quantifier": "all closed contours over exact arithmetic; all corners, all edges; the refutations are contours with 5 and 6 corners in IEEE doubles", "why_tests_cant": "The tests only compare final faces of a few buildings; a missed or spurious split event is visible only for particular shapes.", "anchors": ["bpypolyskel/bpypolyskel.py: _LAVertex.next_event", "bpypolyskel/bpypolyskel.py: _SLAV.__init__", "bpypolyskel/bpypolyskel.py: _approximately_equals"]}
{"id": "C56", "title": "Ghost links are moved to the node they pass", "statement": "removeGhosts first takes a node itself out of its own sinks, once, then treats the nodes in order. Whenever two links of the node have nearly the same direction (1 - cosine below EPSILON, or below PARALLEL and some link of the node at the nearer end crosses the longer link), both are taken away from the node, and the node at the nearer end gets a link to the farther end; positions, heights and all other links stay, so each move lowers the number of links by one. A node is left when no such pair is left, or at the first pair whose nearer end is no node. The last node is still in this state in the end. A skeleton without loops in which no two links of a node enclose an angle of cosine above 0.99 stays as it is. Refuted: points linked before stay connected; no ghost is left in the whole skeleton.", "quantifier": "all skeletons (every arithmetic); unchanged skeletons over exact arithmetic; the refutations are a simple heptagon and a small skeleton in IEEE doubles", "why_tests_cant": "Ghost links appear only for clusters merged in unlucky positions; the tests compare numbers of faces of a few buildings and do not look at the links.", "anchors": ["bpypolyskel/bpypolyskel.py: removeGhosts", "bpypolyskel/bpypolyskel.py: polygonize"]}
{"id": "C57", "title": "Vertices within straight walls", "statement": "A vertex of the footprint between two parts of a straight wall schedules no event in the beginning and takes part in no event of another vertex. If a wall of the outer contour is divided so that at least six smooth corners follow each other, with the first, middle and last of them on one line, mergeNodeClusters raises ZeroDivisionError for every skeleton, and so polygonize raises an exception and leaves verts and faces as they were. Refuted: adding a vertex in the middle of a wall leaves the roof as it was.", "quantifier": "all closed contours, all skeletons, all arguments of polygonize, over exact arithmetic; the refutation is a rectangle with one extra vertex in IEEE doubles", "why_tests_cant": "The footprints of the tests have no long subdivided straight walls; the exception comes from the detection of apses, which has nothing to do with straight walls.", "anchors": ["bpypolyskel/bpypolyskel.py: _LAVertex.next_event", "bpypolyskel/bpypolyskel.py: detectApses", "bpypolyskel/bpypolyskel.py: fitCircle3Points", "bpypolyskel/bpypolyskel.py: polygonize"]}
{"id": "C58", "title": "The clean-up of faces is exact and opens no gap", "statement": "The clean-up at the end of polygonize takes from each face with more than three corners exactly those nodes at which the face runs straight on (cosine of the turn within 0.01 of 1, or coincident corners) and which all faces together visit less than three times; the order of the other corners stays; a single corner left becomes an empty face. Although each face is treated on its own, the border of the faces and the area they cover in plan stay the same if no edge of a node is on the border before and no triangle is flat at such a node. Together with the tracing and the removal of spikes the border of the final roof is the footprint. Refuted without the condition on triangles: a flat triangle keeps its node while the face beside it loses it, and a gap opens.", "quantifier": "all lists of faces without repeated corners in a face; the border over exact arithmetic, and in every arithmetic whose test for straight corners does not depend on the direction", "why_tests_cant": "A gap between two faces does not change the number of faces, which is what the tests compare; it appears only for particular positions of nodes.", "anchors": ["bpypolyskel/bpypolyskel.py: polygonize"]}
{"id": "C59", "title": "Turning the footprint turns the roof", "statement": "Turning all vertices (and the unit vectors, if given) about a vertical axis turns the skeleton and the vertices that polygonize appends, with the same heights: always for what the event loop produces, and for the final skeleton if the angle is a multiple of a right angle or if nodes in different places are at least 0.1 apart. The faces are the same lists of indices if no two vertices of the roof are in one place, no line is drawn twice and no two lines leave a vertex in the same direction. Refuted for arbitrary angles without the condition on nodes: nodes are merged when the sum of the coordinate differences is below 0.1, which depends on the orientation; a rectangle of 50 by 50.078 gets a pyramid, and a ridge when turned.", "quantifier": "all footprints with holes, all angles, all heights, slopes and orders of traversal, over exact arithmetic", "why_tests_cant": "Each test uses one footprint in one orientation; a formula that mixes up coordinates or prefers an axis can still give the expected number of faces there.", "anchors": ["bpypolyskel/bpypolyskel.py: polygonize", "bpypolyskel/bpypolyskel.py: skeletonize", "bpypolyskel/bpypolyskel.py: findClusters", "bpypolyskel/poly2FacesGraph.py: circular_embedding"]}
{"id": "C60", "title": "Where the footprint sits in the list of vertices does not matter", "statement": "If other vertices are put before and behind the vertices passed in, and firstVertIndex, the hole blocks and existing faces are renumbered accordingly, polygonize appends the same nodes, stores the same skeleton and returns the same faces up to the renumbering, or raises the same exception; the order in which sets are walked in one call corresponds to an order in the other. Calls that end in StopIteration are left out: while spikes are removed, a position in the joined face is compared with the number of vertices passed in, so the step can fail for a short list and succeed for a longer one.", "quantifier": "all vertex lists, all vertices before and behind, all footprints with holes inside the list, all existing faces, all numbers of any arithmetic", "why_tests_cant": "Compares two calls for every offset; the tests read one footprint per file, most of them at the start of the list.", "anchors": ["bpypolyskel/bpypolyskel.py: polygonize", "bpypolyskel/bpypolyskel.py: skeletonize", "bpypolyskel/poly2FacesGraph.py: faces"]}
{"id": "C61", "title": "A convex footprint listed clockwise gets no roof, and only a call with a height says so", "statement": "The documentation asks for the outer contour in counterclockwise order. If a convex footprint without holes is listed clockwise instead, skeletonize returns an empty skeleton without an error. polygonize then leaves the lists of vertices and faces as they are: with height 0 (slope given) it returns the caller's faces, or an empty list, as if it had succeeded; with any other height it raises ValueError because the maximum over no nodes is taken. Corners that the code takes for right-angled must have walls of 0.1 or more and the other walls turned away from them.", "quantifier": "all clockwise convex footprints of three or more vertices meeting the condition on corners, at any place of the vertex list, all heights, slopes, existing faces and set orders; exact arithmetic", "why_tests_cant": "The tests contain only footprints in the documented order, and the failing call looks like a successful one.", "anchors": ["bpypolyskel/bpypolyskel.py: skeletonize", "bpypolyskel/bpypolyskel.py: polygonize", "bpypolyskel/bpypolyskel.py: _LAVertex.next_event"]}
{"id": "C62", "title": "Vertices that follow themselves in a face are taken out", "statement": "Take a face none of whose vertices is a candidate for the removal of straight nodes (footprint vertices, and nodes that occur three times or more in all faces). The clean-up at the end of polygonize takes out each vertex exactly as often as it follows itself in the face, the first entry counting as the successor of the last. If the occurrences of each such vertex form one run, no vertex follows itself afterwards, each run is left with one entry and no vertex is lost. Without that condition it fails: list.remove takes out the first occurrence in the face, which need not be the doubled one, and a face of one vertex repeated becomes empty.", "quantifier": "all faces, all numbers of any arithmetic, all positions of vertices", "why_tests_cant": "No test footprint is known to lead to doubled vertices; the statement is about every sequence of vertex numbers.", "anchors": ["bpypolyskel/bpypolyskel.py: polygonize"]}
{"id": "C63", "title": "The roof over a convex footprint follows from its walls alone", "statement": "For a convex footprint as in C49 the appended nodes are exactly the points that have three nearest walls, each once, at the level of the first footprint vertex plus the slope times the distance of these walls; the slope is tan or, if a height is given, the height divided by the greatest distance of such a point. Two calls for footprints with the same walls and the same base level, at any places of any vertex lists, beginning with any vertex and with any set iteration orders, append the same nodes up to order, and the returned faces have the same outlines up to order: the same corners in the same cyclic order beginning at the same wall. For footprints that are not convex this fails: a T-shaped footprint gets eight or six faces, depending on the vertex with which it begins.", "quantifier": "all pairs of strictly convex footprints in general position with the same walls, all vertex lists around them, all heights and slopes, all set iteration orders (exact arithmetic)", "why_tests_cant": "Continuum of footprints; the claim compares two runs and says that no node is missing.", "anchors": ["bpypolyskel/bpypolyskel.py: polygonize", "bpypolyskel/bpypolyskel.py: skeletonize", "bpypolyskel/poly2FacesGraph.py: poly2FacesGraph.faces"]}
{"id": "C64", "title": "The plan of a roof does not depend on its slope and levels", "statement": "Two calls of polygonize for vertices that are at the same places in plan, at whatever levels, and with any slopes give the same faces (or the same exception), the same skeleton, and append nodes at the same places in plan. The same holds for a call with a height, unless it ends before anything is appended: with ValueError if there is no node, with ZeroDivisionError if a node has the height 0; a call with a height that gets further is, to the last bit, the call with some slope. Of all levels only that of the vertex at firstVertIndex is read: if it is the same, the appended nodes are identical. With exact arithmetic the rise of each node over the first vertex is proportional to the slope.", "quantifier": "all vertex lists, footprints with or without holes and unit vectors, all slopes and heights, all set iteration orders, every arithmetic including IEEE (the last sentence: exact arithmetic)", "why_tests_cant": "Compares pairs of calls over all inputs; the tests never vary slope and levels of one footprint, and the code passes three-dimensional vectors to the embedding and to the removal of spikes.", "anchors": ["bpypolyskel/bpypolyskel.py: polygonize", "bpypolyskel/poly2FacesGraph.py: poly2FacesGraph.circular_embedding", "bpypolyskel/bpyeuclid.py: Edge2"]}
{"id": "C65", "title": "Convex footprints of the same shape get roofs of the same shape", "statement": "If a convex footprint as in C49 is turned, scaled and shifted, and is still in general position, then the nodes of its roof are the nodes of the original roof carried in the same way, and each face of the original roof, carried in the same way, is a face of the new roof with the same first wall. With a slope the nodes rise in proportion to the scale, with a height they rise as far as before. The same holds for the mirror image of the footprint, whose faces list the mirrored corners the other way round. Enlarged footprints and mirror images of the same size are in general position if the original is. A footprint made smaller can get a different roof, because nodes less than 0.1 apart are merged; and a footprint that is not convex can get another number of faces than its mirror image.", "quantifier": "all strictly convex footprints in general position, all similarities of the plane, all base levels, heights and slopes, all set iteration orders, any first vertex of the image (exact arithmetic)", "why_tests_cant": "Continuum of footprints and of similarities; the claim compares two runs.", "anchors": ["bpypolyskel/bpypolyskel.py: polygonize", "bpypolyskel/bpypolyskel.py: skeletonize", "bpypolyskel/bpypolyskel.py: mergeNodeClusters"]}
{"id": "C66", "title": "What the project's tests assert holds over every convex footprint", "statement": "Each test of the project asserts that polygonize returns, that every face has at least three corners, that no face has a corner twice, and that checkEdgeCrossing finds no crossing in the stored skeleton. For convex footprints as in C49 all of this holds in exact arithmetic; moreover two links of the skeleton that are not parallel have no point in common except end points. It does not hold for every simple footprint: over one with ten corners two pairs of links cross and a face visits corners more than once.", "quantifier": "all strictly convex footprints in general position, all base levels, heights and slopes, all set iteration orders (exact arithmetic)", "why_tests_cant": "The tests assert it for 173 footprints; the claim is about a continuum of footprints.", "anchors": ["bpypolyskel/bpypolyskel.py: polygonize", "bpypolyskel/bpypolyskel.py: checkEdgeCrossing", "bpypolyskel/bpypolyskel.py: skeletonize", "tests/", "tests_special/", "debug/edge_crossing/"]}
{"id": "C67", "title": "What polygonize gives does not depend on the order of Python's sets", "statement": "Python does not fix the order in which sets are iterated over; the face graph pops from sets and starts its faces at whatever directed edge a set yields first. The vertices polygonize appends and the skeleton it hands out never depend on that order. If no line of the roof is drawn twice and the traced faces visit no vertex twice and have no spike, the returned faces are the same for every order up to their order in the list and the corner they begin with, and if polygonize returns for one order it returns for all. Over convex footprints as in C49 the faces are the same lists, only listed in another order. For simple footprints in general it is false: over one of the project's known failures the removal of spikes gives a face of 12 or of 13 corners, depending on the order.", "quantifier": "all arithmetics, all inputs, all pairs of set iteration orders; the convex part for all strictly convex footprints in general position (exact arithmetic)", "why_tests_cant": "A test sees the one order the interpreter at hand happens to use; small integers hash alike in every run of CPython, so repeating the test never shows another order.", "anchors": ["bpypolyskel/poly2FacesGraph.py: add_edge", "bpypolyskel/poly2FacesGraph.py: faces", "bpypolyskel/bpypolyskel.py: polygonize", "debug/repeated_indices/test_733383913_joho.py"]}
{"id": "C68", "title": "Which exceptions polygonize can end with", "statement": "If the outline and every hole are blocks of at least one vertex inside the vertex list, and there are unit vectors for all of their edges or none at all, polygonize never ends with an IndexError or an AssertionError. An exception that comes from the straight skeleton (ZeroDivisionError, ValueError, RuntimeError, TypeError, AttributeError) leaves the vertex list as it was; one that comes from the faces (ZeroDivisionError, ValueError, StopIteration, 'Endless loop' of the face tracing, 'Endless loop in spike removal') leaves it extended by the skeleton nodes; the caller's list of faces is untouched in both cases. Every loop of the program other than the event loop ends by itself: the model runs out of fuel exactly if the event loop goes through as many rounds as it was given. That a simple footprint raises nothing is false: one with eight corners and a deep oriel ends with a TypeError.", "quantifier": "all arithmetics, all vertex lists, outlines and holes inside them, all heights and slopes, all set iteration orders", "why_tests_cant": "The absence of an exception type is a statement about all inputs; the tests call polygonize on 150 buildings, none of which raises anything.", "anchors": ["bpypolyskel/bpypolyskel.py: polygonize", "bpypolyskel/bpypolyskel.py: skeletonize", "bpypolyskel/bpypolyskel.py: handle_dormer_event", "bpypolyskel/poly2FacesGraph.py: faces"]}
{"id": "C69", "title": "The event of a right-angled dormer fails exactly if its sides differ by more than its width", "statement": "Take a dormer that leaves a wall at a right angle, runs l away from it, w along it and r back, and goes on in the direction of the wall. In exact arithmetic, as long as its four corners are neighbours in the wavefront and other vertices are left, the dormer event ends in a TypeError if l and r differ by more than w. Otherwise it raises nothing, takes the four corners out of the wavefront, schedules nothing, and adds two nodes: the one at the front and the node of the valley, which lies (w+r-l)/2 inside the walls from the first inner corner. That node is (w+r-l)/2 away from the wall before the dormer and from its first side, and (w+l-r)/2 away from its second side and the wall after it; so it is equally far from them only if the sides are equally long. The detection only makes such events for dormers less than 10 wide whose squared side lengths differ by less than 0.35 of their sum; the statement does not depend on that. That the level of this node is the slope times its distance from the walls is false even for equally long sides: over a house of 30 by 20 with a plain dormer it is 5.75 instead of 1.5.", "quantifier": "all directions, widths and side lengths in the real numbers, all contours containing such a dormer in the outline with its first corner four or more before the end of the list, all other contours, all wavefronts in which the four corners are still neighbours", "why_tests_cant": "The limit |l-r| = w separates a roof from an exception; tests sample a few shapes, and none of the 151 footprints in the tests of the project is beyond it (all of them return).", "anchors": ["bpypolyskel/bpypolyskel.py: handle_dormer_event", "bpypolyskel/bpypolyskel.py: detectDormers", "bpypolyskel/bpyeuclid.py: _intersect_line2_line2"]}
