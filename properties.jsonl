{"id": "C01", "title": "Half edge ids and indexes round trip", "statement": "For every nonzero id, HalfEdge(id).id() == id and HalfEdge::fromIndex(h.index()) == h; negation maps id to -id, is an involution without fixed points, and Edge(h) == Edge(g) holds exactly when g == h or g == -h, with edge.positive()/negative() the two half edges of the edge.", "quantifier": "every nonzero integer id / every half edge index", "why_tests_cant": "Unit tests try a few ids; an off by one at a parity or sign boundary only shows for particular ids, and every container in the library is indexed by this encoding.", "anchors": ["libflatsurf/src/half_edge.cc: HalfEdge::HalfEdge, id, operator-, index, fromIndex", "libflatsurf/src/edge.cc: Edge::Edge, positive, negative, index, fromIndex"]}
{"id": "C02", "title": "Permutation objects are bijections with a correct inverse", "statement": "Every Permutation that a constructor (vector, cycles, map) accepts is a bijection of its domain; p(p.preimage(x)) == x and p.preimage(p(x)) == x for every x of the domain; input that does not describe a bijection is rejected, never accepted.", "quantifier": "every input vector / list of cycles / list of pairs, and every element of the domain", "why_tests_cant": "There are infinitely many malformed inputs; tests only try a few well formed ones.", "anchors": ["libflatsurf/src/permutation.cc: Permutation ctors, check, operator(), preimage"]}
{"id": "C03", "title": "Permutation algebra", "statement": "operator*= on two permutations of the same size is composition (p*=q; p(x) == old p(q(x))) and keeps the cached inverse correct; ~p is the inverse; p *= ~p is trivial; products of permutations of different size are rejected without changing either.", "quantifier": "all pairs of permutations and all elements", "why_tests_cant": "Aliasing between the forward and the inverse tables only shows for specific permutations; group laws are universally quantified.", "anchors": ["libflatsurf/src/permutation.cc: operator*=, operator~, trivial"]}
{"id": "C04", "title": "Multiplying a permutation with a cycle", "statement": "p *= cycle composes p with the cyclic permutation that the list denotes (x_i maps to x_{i+1}), on the right; cycle *= p composes on the left with the same cyclic permutation; both keep forward and inverse tables consistent; lists with repeated entries are rejected.", "quantifier": "every permutation and every list of half edges", "why_tests_cant": "A two element cycle is its own inverse, so a test on transpositions cannot see the direction of the cycle; the defect needs cycles of length at least three.", "anchors": ["libflatsurf/src/permutation.cc: operator*=(cycle) left and right"]}
{"id": "C05", "title": "cycles() decomposes a permutation", "statement": "The lists returned by cycles() partition the domain, in each list every element is mapped to its successor cyclically, and feeding them back to the constructor gives an equal permutation.", "quantifier": "every permutation", "why_tests_cant": "Universally quantified round trip; serialization depends on it.", "anchors": ["libflatsurf/src/permutation.cc: cycles, Permutation(cycles)", "libflatsurf/flatsurf/cereal.hpp: save/load Permutation"]}
{"id": "C06", "title": "Sets of edges and half edges behave like finite sets under any history", "statement": "After any sequence of insert/erase/construct operations contains(x) holds iff x was inserted and not erased since; iteration yields every member exactly once in increasing index order; size/empty/disjoint/== agree with the mathematical set, independent of internal capacity.", "quantifier": "every sequence of set operations on every pair of sets", "why_tests_cant": "Equality and disjointness of sets of different internal capacity only goes wrong for particular histories of operations.", "anchors": ["libflatsurf/src/indexed_set.cc", "libflatsurf/src/indexed_set_iterator.cc", "libflatsurf/src/half_edge_set.cc", "libflatsurf/src/edge_set.cc: operator=="]}
{"id": "C07", "title": "Triangulations stay well formed under every construction and flip history", "statement": "Every FlatTriangulationCombinatorial accepted by a constructor, and every one obtained from it by any sequence of flips, has half edges closed under negation, every non-boundary face a 3-cycle, boundary half edges fixed by nextInFace, and nextAtVertex(e) == -previousInFace(e) for every non-boundary e.", "quantifier": "every accepted construction input and every finite sequence of flips", "why_tests_cant": "Two redundant permutations are updated independently by each flip; agreement for all gluings (including self-glued triangles) and all histories cannot be enumerated.", "anchors": ["libflatsurf/src/flat_triangulation_combinatorial.cc: ctors, check, flip"]}
{"id": "C08", "title": "A flip has the documented combinatorial effect and only that", "statement": "flip(e) turns the faces (e a b)(-e c d) into (a -e d)(c e b), leaves every other face alone, keeps the boundary and the number of half edges, and flipping the same edge twice exchanges e and -e so that four flips restore the surface; when e borders the boundary or both sides of e are the same face the flip is rejected and nothing changes.", "quantifier": "every triangulation and every half edge", "why_tests_cant": "Coincidences between a, b, c, d (for instance a == -b) change which table entries overlap; universally quantified.", "anchors": ["libflatsurf/src/flat_triangulation_combinatorial.cc: flip"]}
{"id": "C09", "title": "Cached vertices stay correct after flips", "statement": "After any sequence of flips Vertex::source(e) is the vertex whose outgoing half edges are exactly the orbit of e under nextAtVertex, i.e. the incrementally updated vertex objects equal the recomputed ones.", "quantifier": "every triangulation and every finite sequence of flips", "why_tests_cant": "The incremental update inspects memberships of neighbouring half edges which coincide in degenerate gluings; depends on whole history.", "anchors": ["libflatsurf/src/vertex.cc: afterFlip, source, outgoing", "libflatsurf/src/flat_triangulation_combinatorial.cc: resetVertexes, flip"]}
{"id": "C10", "title": "Triangulation equality and reversal", "statement": "clone() and ~~s equal s; ~s has the orientation reversed; two triangulations compare equal only if they have the same faces and the same boundary.", "quantifier": "all pairs of triangulations", "why_tests_cant": "Equality ignoring a component of the state only shows for pairs of surfaces that differ in exactly that component.", "anchors": ["libflatsurf/src/flat_triangulation_combinatorics.cc: operator==, operator~, clone"]}
{"id": "C11", "title": "Relabeling is a group action", "statement": "relabel(p) renames every half edge consistently: the new nextInFace(p(e)) == p(old nextInFace(e)); relabel(p) then relabel(q) equals relabel(q*p); relabeling by the identity changes nothing; well formedness is kept.", "quantifier": "every triangulation and every edge preserving permutation", "why_tests_cant": "Universally quantified over permutations.", "anchors": ["libflatsurf/src/flat_triangulation_combinatorics.cc: relabel"]}
{"id": "C12", "title": "insertAt subdivides a face combinatorially", "statement": "insertAt(e) adds exactly three edges and one vertex of degree three inside the face of e, replaces that face by three faces which each contain one of its half edges, and leaves all other faces unchanged; the result is well formed.", "quantifier": "every triangulation and every half edge of a non-boundary face", "why_tests_cant": "Universally quantified; the half edges of the face may be glued to each other.", "anchors": ["libflatsurf/src/flat_triangulation_combinatorics.cc: insertAt"]}
{"id": "C13", "title": "slit opens an edge", "statement": "slit(e) gives a well formed triangulation with one more edge, in which both sides of the old edge have become boundary, and all faces are unchanged up to the name of one half edge.", "quantifier": "every triangulation and every half edge with no boundary side", "why_tests_cant": "The vertex permutation is rewritten by hand; gluings with e and -e at one vertex behave differently from the generic one.", "anchors": ["libflatsurf/src/flat_triangulation_combinatorics.cc: slit"]}
{"id": "C14", "title": "Orientation predicates of vectors are exact", "statement": "ccw(v,w) is COUNTERCLOCKWISE/COLLINEAR/CLOCKWISE iff the exact determinant is positive/zero/negative, is antisymmetric and invariant under positive scaling; orientation(v,w) is the sign of the exact dot product.", "quantifier": "all pairs of vectors over every exact coordinate type", "why_tests_cant": "Signs near zero with huge coordinates can not be sampled exhaustively.", "anchors": ["libflatsurf/src/vector.cc: ccw, orientation"]}
{"id": "C15", "title": "Interval filtered predicates never lie", "statement": "Whenever an interval (Arb) comparison of vectors returns a definite answer, the answer is the true one for all exact vectors enclosed by the balls; so the filter-then-exact comparisons of Chain agree with the exact ones.", "quantifier": "all balls and all exact vectors inside of them", "why_tests_cant": "An unsound filter only fails for inputs whose enclosure touches the decision boundary.", "anchors": ["libflatsurf/src/vector.cc: Vector<Arb> ccw, orientation, <, >, ==", "libflatsurf/src/chain.cc: operator<, operator>"]}
{"id": "C16", "title": "inSector is a half open sector test", "statement": "v.inSector(begin, end) holds iff turning counterclockwise from begin one meets the direction of v before (strictly) the direction of end; the sectors [a,b) and [b,a) partition all directions when a and b are not parallel.", "quantifier": "all nonzero vectors", "why_tests_cant": "Eight configurations of quadrants and collinear cases; correctness is a statement on all directions.", "anchors": ["libflatsurf/src/vector.cc: inSector"]}
{"id": "C17", "title": "Sorting by slope is a strict weak order", "statement": "Vector::CompareSlope is irreflexive, transitive, with transitive incomparability on nonzero vectors, and orders by slope; CompareLength orders by Euclidean length.", "quantifier": "all triples of nonzero vectors", "why_tests_cant": "An invalid comparator is undefined behaviour in std::sort/std::map and depends on particular triples.", "anchors": ["libflatsurf/src/vector.cc: CompareSlope, CompareLength"]}
{"id": "C18", "title": "Bounds are sound integer enclosures of lengths", "statement": "Bound::lower(v) <= |v| <= Bound::upper(v) with the squares differing by less than one; v < Bound and v > Bound decide |v| against the bound exactly; comparisons of bounds are a total order; scaling a bound scales it.", "quantifier": "all vectors and all bounds", "why_tests_cant": "Rounding at exact squares.", "anchors": ["libflatsurf/src/bound.cc", "libflatsurf/src/vector.cc: operator<, operator> Bound"]}
{"id": "C19", "title": "Flat triangulations stay flat under every flip history", "statement": "In every FlatTriangulation that a constructor accepts and after every sequence of accepted flips: the vectors of each triangle sum to zero and turn counterclockwise, the vector of -e is the negative of the vector of e, and edges other than the flipped ones keep their vector.", "quantifier": "every surface over every exact coordinate type, every finite sequence of flips", "why_tests_cant": "The incremental vector update has to agree with the combinatorial one in all gluings and after every history.", "anchors": ["libflatsurf/src/flat_triangulation.cc: ctor, flip, updateAfterFlip, check, convex"]}
{"id": "C20", "title": "Flips preserve area", "statement": "area2() is positive, is twice the sum of the triangle areas each counted once, and does not change under any sequence of flips.", "quantifier": "every surface and every finite sequence of flips", "why_tests_cant": "Global invariant over all histories.", "anchors": ["libflatsurf/src/flat_triangulation.cc: area2, flip"]}
{"id": "C21", "title": "Linear maps act on surfaces", "statement": "applyMatrix multiplies area2() by |det|, keeps a well formed surface when det > 0, and for det < 0 gives a well formed surface with reversed combinatorics; scale(c) multiplies area2 by c^2; applying two matrices one after the other is applying the product.", "quantifier": "every surface and every matrix over the coordinate ring", "why_tests_cant": "Universally quantified over matrices.", "anchors": ["libflatsurf/src/flat_triangulation.cc: applyMatrix, scale"]}
{"id": "C22", "title": "Delaunay test of an edge", "statement": "delaunay(e) does not depend on the orientation of the edge, agrees with the empty circumcircle criterion, NON_DELAUNAY implies that the surrounding quadrilateral is strictly convex so that flip(e) can not be rejected, and after flipping a NON_DELAUNAY edge it is DELAUNAY.", "quantifier": "every surface and every edge with two adjacent triangles", "why_tests_cant": "Degree four polynomial inequality on all configurations.", "anchors": ["libflatsurf/src/flat_triangulation.cc: delaunay(Edge), delaunay(), convex, flip"]}
{"id": "C23", "title": "delaunay() only returns Delaunay triangulations", "statement": "When delaunay() returns, no edge is NON_DELAUNAY, area2 is unchanged, the surface is well formed, and only flips were performed.", "quantifier": "every surface", "why_tests_cant": "Statement about the final state of an unbounded loop.", "anchors": ["libflatsurf/src/flat_triangulation.cc: delaunay()"]}
{"id": "C24", "title": "Total angle (Gauss-Bonnet)", "statement": "On a surface without boundary the values angle(v) over all vertices sum to half the number of triangles; angle(v) is at least one; angles are unchanged by flips.", "quantifier": "every closed surface", "why_tests_cant": "Global identity for all surfaces; the counting rule has tie breaks for horizontal half edges.", "anchors": ["libflatsurf/src/flat_triangulation.cc: angle, Vertex"]}
{"id": "C25", "title": "Every direction lies in exactly one sector at a vertex turn", "statement": "The sectors inSector(e, v), over the half edges e at a vertex, cover each direction exactly angle(vertex) times; sector(plane, v), sector(start, ccw, v) and sector(sector, start, ccw, v) return the first sector that contains the direction when walking in the documented direction.", "quantifier": "every surface, vertex without boundary, direction and start", "why_tests_cant": "Statement about all directions.", "anchors": ["libflatsurf/src/flat_triangulation.cc: inSector, sector"]}
{"id": "C26", "title": "Chains: cached vectors agree with coefficients after every history", "statement": "For every sequence of += / -= / unary minus / copies / reads on chains (including c += c), the vector a chain converts to is exactly the integer combination of edge vectors given by its coefficients, and the approximate vector encloses it; this also holds for *=.", "quantifier": "every finite history of chain operations", "why_tests_cant": "The lazily maintained caches are dropped or kept depending on a cost model, so stale caches need specific histories.", "anchors": ["libflatsurf/src/chain.cc", "libflatsurf/src/chain_vector.cc"]}
{"id": "C27", "title": "Chains form a free abelian group on edges", "statement": "operator[] after += and -= is coefficient wise addition, c - c is zero, c[-e] == -c[e], == is coefficient wise equality, and iteration yields exactly the edges with nonzero coefficient in increasing order.", "quantifier": "all chains", "why_tests_cant": "Universally quantified algebraic laws.", "anchors": ["libflatsurf/src/chain.cc: operator[], +=, -=, ==, bool", "libflatsurf/src/chain_iterator.cc"]}
{"id": "C28", "title": "Points: equality is independent of representation", "statement": "Two Points describe the same point of the surface iff they compare equal; rotating within the face, rescaling the barycentric coordinates and crossing an edge on which the point lies does not change the Point; == is an equivalence relation and equal points have equal hash.", "quantifier": "all points, all faces, all representations", "why_tests_cant": "A point on an edge or a vertex has many representations; hash/equality mismatch needs particular pairs.", "anchors": ["libflatsurf/src/point.cc: normalize, rotated, rotate, crossed, operator==, hash"]}
{"id": "C29", "title": "Barycentric and Cartesian coordinates of points agree", "statement": "Point(surface, face, v).vector(face) == v for v inside of the face, and crossing into the neighbouring face describes the same point of the plane.", "quantifier": "every surface, face and vector", "why_tests_cant": "Identity on all coordinates; signs of the denominators matter.", "anchors": ["libflatsurf/src/point.cc: barycentric, cartesian, crossed"]}
{"id": "C30", "title": "Mapping points through a flip", "statement": "The deformation of a flip maps a point to the same point of the plane expressed in a face of the new triangulation, never fails for a point of the domain, and the section undoes it.", "quantifier": "every surface, flippable edge and point", "why_tests_cant": "Rational coordinate change with several cases for all points.", "anchors": ["libflatsurf/src/flip_deformation_relation.cc: operator()(Point)"]}
{"id": "C31", "title": "Mapping points through the insertion of a marked point", "statement": "The deformation of inserting a marked point in a face or on an edge maps each point to the same point of the plane in the subdivided faces of the surface with the marked point, and never fails.", "quantifier": "every surface, inserted point and point", "why_tests_cant": "The rotation of coordinates inside of the loop is only exercised for points outside of the first of the three new triangles.", "anchors": ["libflatsurf/src/insert_marked_point_in_face_deformation_relation.cc: operator()(Point)", "libflatsurf/src/insert_marked_point_on_edge_deformation_relation.cc: operator()(Point)"]}
{"id": "C32", "title": "Sections of linear deformations are inverses", "statement": "The section of the deformation given by a matrix is given by the inverse matrix.", "quantifier": "every invertible matrix", "why_tests_cant": "A diagonal or unipotent example does not tell the adjugate from the matrix itself.", "anchors": ["libflatsurf/src/linear_deformation_relation.cc: section"]}
{"id": "C33", "title": "Quadratic polynomial positivity", "statement": "QuadraticPolynomial(a,b,c).positive() holds iff a t^2 + b t + c > 0 for every t in [0,1].", "quantifier": "all coefficients", "why_tests_cant": "Equivalence with a statement on a continuum, with degenerate discriminants.", "anchors": ["libflatsurf/src/quadratic_polynomial.cc: positive"]}
{"id": "C34", "title": "Refining a search sector is intersection", "statement": "SaddleConnections::sector(v, w) restricts the set of directions to exactly the intersection of the old sectors with [v,w), in every configuration, and bound/lowerBound/source/sector restrictions commute.", "quantifier": "all sectors and directions", "why_tests_cant": "Many cyclic order configurations of four directions.", "anchors": ["libflatsurf/src/saddle_connections.cc: sector, Sector::refine, Sector::contains, bound, lowerBound"]}
{"id": "C35", "title": "Search for saddle connections: deferred moves", "statement": "Collapsing the queue of deferred moves of the search gives the same half edge and a chain with the same vector as performing the moves one after the other, for every queue of moves.", "quantifier": "every surface and every queue of moves", "why_tests_cant": "The simplification is a rewriting system on arbitrarily long queues.", "anchors": ["libflatsurf/src/saddle_connections_iterator.cc: applyMoves, apply"]}
{"id": "C36", "title": "Search for saddle connections: pruning is sound", "statement": "When an edge crossed by the search lies completely outside of the search radius, every vertex visible through that edge is outside of the radius, so nothing is lost by skipping it.", "quantifier": "all edges, radii and visible points", "why_tests_cant": "Statement on a continuum.", "anchors": ["libflatsurf/src/saddle_connections_iterator.cc: increment", "libflatsurf/src/quadratic_polynomial.cc"]}
{"id": "C37", "title": "By-length iteration is sorted and complete", "statement": "SaddleConnections::byLength enumerates exactly the connections of the underlying collection, each once, in order of nondecreasing length, for every bound and lower bound.", "quantifier": "every collection of connections and every bound", "why_tests_cant": "Completeness across the doubling buckets is a statement on all lengths, including lengths exactly on a bucket boundary.", "anchors": ["libflatsurf/src/saddle_connections_by_length.cc", "libflatsurf/src/saddle_connections_by_length_iterator.cc"]}
{"id": "C38", "title": "Paths: reversal, concatenation and iteration", "statement": "-(-p) == p, -(p+q) == (-q)+(-p), iteration from begin() to end() visits each segment exactly once in order, closed paths wrap around, and size agrees.", "quantifier": "all paths", "why_tests_cant": "Cyclic iterators have a turn counter whose equality is special cased for the end.", "anchors": ["libflatsurf/src/path.cc", "libflatsurf/src/path_iterator.cc"]}
{"id": "C39", "title": "Union find computes the equivalence closure", "statement": "After any sequence of join operations two items have the same representative iff they are connected by the joined pairs.", "quantifier": "every sequence of joins", "why_tests_cant": "Path compression interleaved with joins depends on history.", "anchors": ["libflatsurf/src/util/union_find.ipp"]}
{"id": "C40", "title": "Isomorphism codes are complete invariants", "statement": "The code word of a surface for combinatorial equivalence does not depend on the labeling of its half edges, and two connected surfaces have the same code iff a relabeling maps one to the other; the minimum over the walkers is computed although walkers are discarded on the way.", "quantifier": "all connected closed triangulations and all relabelings", "why_tests_cant": "Universally quantified over labelings; tests try a handful of surfaces.", "anchors": ["libflatsurf/src/combinatorial_equivalence_walker.cc", "libflatsurf/src/impl/equivalence_walker.hpp: word", "libflatsurf/src/combinatorial_equivalence_class_code.cc"]}
{"id": "C41", "title": "Normalization matrices", "statement": "The orthonormalizing matrix maps the two given vectors to (1,0),(0,1); the orthogonalizing matrix has determinant of absolute value one and maps them to orthogonal vectors along the axes.", "quantifier": "all linearly independent pairs of vectors", "why_tests_cant": "Identity on all inputs.", "anchors": ["libflatsurf/src/linear_equivalence.cc: orthonormalize, orthogonalize"]}
{"id": "C42", "title": "Saddle connections: equality and hashing", "statement": "Equal saddle connections have equal hash values and negation is an involution compatible with equality.", "quantifier": "all pairs of saddle connections of one surface", "why_tests_cant": "Equality compares the vector while hashing uses the chain; a mismatch needs two chains with the same vector.", "anchors": ["libflatsurf/src/saddle_connection.cc: operator==, operator-, hash"]}
{"id": "C43", "title": "Serialization round trips", "statement": "Loading what was saved gives an equal object: half edges, edges, bounds, permutations, vectors, chains, triangulations (also with boundary).", "quantifier": "all serializable values", "why_tests_cant": "Information that is not written only matters for objects with that information.", "anchors": ["libflatsurf/flatsurf/cereal.hpp"]}
{"id": "C44", "title": "Tracked maps follow the triangulation", "statement": "A HalfEdge, EdgeSet, EdgeMap, HalfEdgeMap or OddHalfEdgeMap attached to a triangulation keeps the values of all half edges that exist under swap and erase, for every pair of swapped half edges; the swaps made by a collapse move exactly the edges that are to be erased to the end.", "quantifier": "every map and all pairs of half edges", "why_tests_cant": "Swapping a half edge with its own negative is a corner case among quadratically many pairs.", "anchors": ["libflatsurf/src/tracked.cc: defaultSwap, defaultErase", "libflatsurf/flatsurf/half_edge_map.hpp", "libflatsurf/flatsurf/edge_map.hpp", "libflatsurf/flatsurf/odd_half_edge_map.hpp", "libflatsurf/src/flat_triangulation_combinatorial.cc: swap, collapse (renumbering)"]}
{"id": "C45", "title": "Vertical: cached values agree with the surface", "statement": "projections, orientation and large() reported by a Vertical object equal the values computed freshly from the surface after any sequence of flips.", "quantifier": "every surface, vertical and every finite sequence of flips and queries", "why_tests_cant": "Stale caches need a specific interleaving of queries and flips.", "anchors": ["libflatsurf/src/vertical.cc"]}
{"id": "C46", "title": "Vertical: classification of faces and components", "statement": "classifyFace() is invariant under rotating the face and agrees with the signs of the three half edges; components() partitions the half edges of the surface into the classes connected without crossing vertical edges.", "quantifier": "every surface and vertical", "why_tests_cant": "Statement on all faces and on reachability.", "anchors": ["libflatsurf/src/vertical.cc: classifyFace, visit, components"]}
{"id": "C47", "title": "Flow decomposition summary queries are sound", "statement": "hasCylinder() is true iff some component is a cylinder and false only if all are known not to be; completelyPeriodic() is true iff all components are cylinders, false only if some component is not, and does not depend on the order of the components; parabolic() is true iff all components are cylinders with commensurable moduli, and false only if some component is not a cylinder or two cylinders have incommensurable moduli.", "quantifier": "all lists of three valued component answers", "why_tests_cant": "Three valued logic over lists of any length and order.", "anchors": ["libflatsurf/src/flow_decomposition.cc: hasCylinder, completelyPeriodic, parabolic"]}
{"id": "C48", "title": "Composition of deformations", "statement": "(f*g)(x) == f(g(x)); composing with trivial deformations changes nothing; composition is associative; incompatible deformations are rejected; the section of a composition undoes it when the sections of the parts do.", "quantifier": "all composable deformations", "why_tests_cant": "Universally quantified law with short cuts for trivial deformations.", "anchors": ["libflatsurf/src/deformation.cc: operator*, section", "libflatsurf/src/composite_deformation_relation.cc"]}
{"id": "C49", "title": "Mapping paths through a retriangulation terminates", "statement": "Mapping a path through a generic retriangulation processes every path, whatever its number of segments and their directions.", "quantifier": "all paths", "why_tests_cant": "Non termination for a class of inputs can not be observed by passing tests.", "anchors": ["libflatsurf/src/generic_retriangulation_deformation_relation.cc: operator()(Path)"]}
{"id": "C50", "title": "Machine integers scaled by big integers", "statement": "Multiplying or dividing a long long coordinate by an mpz gives the exact result or is rejected.", "quantifier": "all 64 bit integers and all big integers", "why_tests_cant": "Overflow bounds matter only at the extreme values.", "anchors": ["libflatsurf/src/vector.cc: operator*=(mpz), operator/=(mpz) for long long"]}
{"id": "C51", "title": "Running lengths of intervals", "statement": "After any sequence of push, pop and subtract, the sum that Lengths maintains equals the sum of the lengths of the labels on the stack and all lengths are positive; a push followed by a pop restores the state; the comparisons are exact; the constructor rejects connections that do not point to the right. Subtracting replaces the saddle connection of the minuend by one whose vector is that of the minuend minus a multiple of the path across the subtrahends, with source and target in the sectors that contain its directions, at the right vertices, and at its end in the same half plane as before; subtractRepeated() subtracts the sum as often as possible such that a positive length remains, if the combinatorics do not change.", "quantifier": "every closed surface, every vertical direction, every sequence of push/pop/subtract that keeps lengths positive", "why_tests_cant": "Invariant over histories.", "anchors": ["libflatsurf/src/lengths.cc:66-90", "libflatsurf/src/lengths.cc:112-254", "libflatsurf/src/lengths.cc:269-290", "libflatsurf/src/lengths.cc:322-341"]}
{"id": "C52", "title": "Intersections along a half edge are ordered", "statement": "operator< of two HalfEdgeIntersections on the same half edge orders them by position along the half edge.", "quantifier": "all intersections on a half edge", "why_tests_cant": "Comparison by cross multiplication depends on the sign of the denominators.", "anchors": ["libflatsurf/src/half_edge_intersection.cc"]}
{"id": "C53", "title": "Linear deformations map points", "statement": "The deformation returned by applyMatrix maps a point of the surface to the point given by the linear map, also when the matrix reverses the orientation; trivial() recognizes the identity matrix.", "quantifier": "every closed surface, invertible matrix and point", "why_tests_cant": "Tests map a few points with matrices of positive determinant; a point in a face under a reflection needs the corners of the image triangle for all faces.", "anchors": ["libflatsurf/src/linear_deformation_relation.cc: operator()(Point), trivial"]}
{"id": "C54", "title": "Approximating and comparing critical times", "statement": "QuadraticPolynomial::root returns a ball around the smallest root in [0, 1], or nothing if there is no root, at every precision; operator< tells whether the smallest root of one polynomial is smaller than the smallest root of the other; both terminate.", "quantifier": "every pair of quadratic polynomials and every sound and convergent ball arithmetic", "why_tests_cant": "Depends on the separation of roots relative to the precision; tests only see well separated roots.", "anchors": ["libflatsurf/src/quadratic_polynomial.cc: root, operator<"]}
{"id": "C55", "title": "Angles between saddle connections", "statement": "For saddle connections a and b that start at the same vertex, a.angle(b) is the number of full turns of 2 pi in the counterclockwise turn from a to b, a.ccw(b) tells whether that turn is less than, equal to (or zero), or more than half of the total angle at the vertex, and both are rejected when the vertices differ.", "quantifier": "all surfaces, all inner vertices of any total angle, all pairs of saddle connections starting there", "why_tests_cant": "The number of full turns is counted by a loop over half edges with special cases for the first and the last sector; errors show only at vertices with large total angle and for special directions.", "anchors": ["libflatsurf/src/saddle_connection.cc: angle, ccw"]}
{"id": "C56", "title": "The search finds every saddle connection once", "statement": "Iterating over surface.connections().bound(r) comes to an end and reports exactly the saddle connections of length at most r: every straight segment between two vertices with no vertex in its interior, each once for each sector that it starts in, with its vector, and with the half edges of the sectors at its start and at its end; on a surface without boundary also its reverse. The same holds when the search is restricted to sectors and by a lower bound.", "quantifier": "every surface, every radius, every list of sectors", "why_tests_cant": "The search goes through an unbounded unfolding of the surface with queued moves and a stack of states; tests count connections on some surfaces.", "anchors": ["libflatsurf/src/saddle_connections_iterator.cc: prepareSearch, increment, pop, classifyHalfEdgeEnd, pushStart, applyMoves, dereference", "libflatsurf/src/saddle_connections.cc: bound, lowerBound, begin, end"]}
{"id": "C57", "title": "Saddle connections are sorted by angle", "statement": "Iterating over surface.connections() reports the connections at each source vertex in counterclockwise order, as documented for byAngle().", "quantifier": "every surface and radius", "why_tests_cant": "Tests compare numbers of connections and not their order.", "anchors": ["libflatsurf/flatsurf/saddle_connections.hpp:33, 75-76, 91", "libflatsurf/src/saddle_connections_iterator.cc: increment"]}
{"id": "C58", "title": "The shortest edge is a shortest edge", "statement": "FlatTriangulation::shortest() returns the vector of an edge such that no half edge is shorter; shortest(direction) returns the vector of an edge whose projection to the direction is nonzero and as short as possible, whenever some edge is not orthogonal to the direction.", "quantifier": "every nonempty surface and every direction", "why_tests_cant": "The minimum over all edges with a comparison that treats orthogonal edges specially; tests check one surface.", "anchors": ["libflatsurf/src/flat_triangulation.cc:415-443 shortest"]}
{"id": "C59", "title": "Inserting a point as a vertex", "statement": "insert(point) on a closed surface throws if the point is a vertex. Otherwise it does not flip anything, and the surface of the deformation it returns has exactly one more vertex, with angle 1, at the place of the point: three edges from it subdivide the face that contains the point, or the edge that contains it is split and two more edges subdivide the two faces at it. It only fails in other cases if the vector to the point is not over the ring of the coordinates. The area and the angles of the other vertices do not change.", "quantifier": "every closed surface, every point in every representation, every exact ring", "why_tests_cant": "Tests insert a few points into the same two or three surfaces and check that the result is a valid surface, not that the vertex is at the point.", "anchors": ["libflatsurf/src/flat_triangulation.cc: insert, insertAt", "libflatsurf/flatsurf/flat_triangulation.hpp: insert"]}
{"id": "C60", "title": "Inserting a marked point at a vector", "statement": "insertAt(nextTo, vector) on a closed surface throws if the vector is not in the sector at nextTo; it only throws otherwise if the vector runs into a vertex. If it returns, then the half edge next to the half edge that nextTo is set to ends in the new vertex and its vector is the given vector; all flips on the way kept the half edge that the vector is next to; the result is closed, the new vertex has angle 1, and area and other angles are not changed.", "quantifier": "every closed surface, half edge, and vector over every exact ring", "why_tests_cant": "The flips on the way depend on how the vector crosses the surface; only vectors that cross a few edges of a few surfaces are tested.", "anchors": ["libflatsurf/src/flat_triangulation.cc: insertAt", "libflatsurf/flatsurf/flat_triangulation.hpp: insertAt"]}
{"id": "C61", "title": "Flips keep paths", "statement": "The deformation of a flip maps each saddle connection to the saddle connection with the same vector whose source and target are in the sectors that contain this vector at the same vertex; sequences of flips do, too; the section of a flip maps it back; half edges other than the flipped ones are their own images and the flipped ones are reported to have no image.", "quantifier": "all flips of surfaces without boundary, all paths", "why_tests_cant": "The new sector depends on whether the vector is on the old edge, on the new edge or between them; for every vector.", "anchors": ["libflatsurf/src/flip_deformation_relation.cc: operator()(Path), section", "libflatsurf/src/deformation.cc: operator()(HalfEdge)"]}
{"id": "C62", "title": "Linear maps and relabelings map paths and half edges", "statement": "applyMatrix maps saddle connections to saddle connections whose vector is the image under the matrix, in the image of the sector (also when orientation is reversed); relabel maps them to saddle connections with the same vector and relabeled source and target; half edges are mapped accordingly; and so do all products and sections of these.", "quantifier": "all matrices, relabelings and their products on surfaces without boundary; all paths", "why_tests_cant": "Universally quantified over all surfaces, matrices of either sign and paths.", "anchors": ["libflatsurf/src/linear_deformation_relation.cc: operator()(Path)", "libflatsurf/src/combinatorial_deformation_relation.cc: operator()(Path)", "libflatsurf/src/deformation.cc: operator()(HalfEdge)"]}
{"id": "C63", "title": "automorphisms() counts the symmetries of a surface", "statement": "For a closed connected surface, EquivalenceClass::automorphisms() is the number of bijections of the half edges that respect edges and triangles (and, for linear equivalences, are induced by a matrix of the group), each counted once; mirror symmetries are counted exactly when the equivalence is not oriented.", "quantifier": "all closed connected surfaces and all kinds of equivalence", "why_tests_cant": "The count is that of the walkers that survive a tournament; tests know the count for a few surfaces only and cannot see a symmetry that is counted twice or missed.", "anchors": ["libflatsurf/src/equivalence_class.cc: automorphisms", "libflatsurf/src/impl/equivalence_walker.hpp: word", "libflatsurf/src/combinatorial_equivalence.cc", "libflatsurf/src/linear_equivalence.cc"]}
{"id": "C64", "title": "Linear equivalence codes are complete invariants and representatives are canonical", "statement": "For closed connected surfaces and the unlabeled, area preserving and linear equivalences, isomorphic() either reports with an exception that the coordinates cannot be divided, or returns true exactly if some matrix of the group maps one surface to the other, triangle by triangle (without reversing the orientation, if the equivalence is oriented). Over fields and for unlabeled equivalences there is no exception. The representative of a class is such an image of the surface, and two surfaces have the same representative exactly if they are isomorphic.", "quantifier": "all closed connected surfaces over all exact coordinate rings, all three groups, oriented or not", "why_tests_cant": "The result comes from a tournament of walkers with normalization matrices; a wrong normalization only shows up for particular pairs of surfaces, and nothing in a test can say that no matrix exists.", "anchors": ["libflatsurf/src/equivalence.cc: isomorphic", "libflatsurf/src/equivalence_class.cc", "libflatsurf/src/linear_equivalence.cc: code, normalize, orthogonalize, orthonormalize", "libflatsurf/src/linear_equivalence_walker.cc"]}
{"id": "C65", "title": "isomorphisms() lists every isomorphism exactly once", "statement": "For closed connected surfaces and the unlabeled, area preserving and linear equivalences, isomorphisms(domain, codomain) throws exactly when isomorphic() throws; otherwise it returns deformations from the domain to the codomain whose action on half edges runs through all bijections that are induced by a matrix of the group, each exactly once. In particular, the list is empty exactly if the surfaces are not isomorphic.", "quantifier": "all pairs of closed connected surfaces over all exact coordinate rings, all three groups, oriented or not", "why_tests_cant": "The list is built from the normalizations of the domain and the inverse of one normalization of the codomain, with a shortcut when the codomain is already normalized; tests check a few lists and cannot see a missing or repeated isomorphism.", "anchors": ["libflatsurf/src/equivalence.cc: isomorphisms", "libflatsurf/src/linear_equivalence_walker.cc: deformation, normalization", "libflatsurf/src/impl/equivalence_walker.hpp: word"]}
{"id": "C66", "title": "isomorphism() returns an isomorphism exactly if there is one", "statement": "For closed connected flat triangulations, isomorphism(other, kind, filterMatrix, filterHalfEdgeMap) returns a value exactly if there is a matrix over the coordinate ring that filterMatrix accepts and a bijection of half edges that filterHalfEdgeMap accepts and that maps vectors by this matrix and triangles (kind FACES) or Delaunay cells (kind DELAUNAY_CELLS) to triangles or cells, in the opposite order if the determinant is negative. The linear map that is returned then has the image of the surface under the matrix as its codomain; for FACES this codomain is the other surface up to a relabeling. Surfaces of which only one has a boundary or that have a different number of half edges have no isomorphism; two surfaces with boundary and the same number of half edges lead to an exception.", "quantifier": "all pairs of closed connected surfaces over all exact coordinate rings, both kinds, all filters that only depend on the value of the matrix", "why_tests_cant": "The search fixes the image of one half edge and explores the surface depth first; tests compare a few small surfaces with themselves and cannot show that no isomorphism is missed, that the map found is a bijection, or that the cells of an ambiguous Delaunay triangulation are always explored completely.", "anchors": ["libflatsurf/src/flat_triangulation.cc: FlatTriangulation::isomorphism", "libflatsurf/flatsurf/flat_triangulation.hpp: isomorphism", "libflatsurf/flatsurf/isomorphism.hpp"]}
{"id": "C67", "title": "Interval exchange transformations are first return maps of the vertical flow", "statement": "For a closed surface, a direction and a half edge, IntervalExchangeTransformation(surface, vertical, large) succeeds exactly if the direction is not zero and the half edge is large, points to the right and is the only large edge in its component, and no half edge of the component is vertical; otherwise it throws. The top and the bottom contour consist of the same half edges, those of the component that point to the right and are narrower than another side in both of their triangles; both add up to the large half edge. The transformation that the two lists of labels and the lengths describe is the first return map of the vertical flow to the large half edge. Each label has a saddle connection and a length, the half edge and its width. forget() returns these lengths from left to right and the permutation that sorts the bottom.", "quantifier": "every closed surface, every vertical direction, every half edge, every point in the interior of an interval", "why_tests_cant": "A test checks the contours of a few surfaces but never where the flow goes; the claim is about all points of the transversal and about all surfaces with a unique large edge.", "anchors": ["libflatsurf/src/interval_exchange_transformation.cc:60-82", "libflatsurf/src/interval_exchange_transformation.cc:146-221", "libflatsurf/src/contour_component.cc:176-199", "libflatsurf/src/lengths.cc:66-75", "libflatsurf/src/vertical.cc:64-79"]}
{"id": "C68", "title": "Making large edges unique", "statement": "For a closed surface, a direction and a large half edge, when makeUniqueLargeEdge returns, it has only flipped edges of the component of the half edge; the half edge returned is the given one oriented to the right, its vector is unchanged, it is the only large edge of its component, the set returned is this component, and nothing has changed elsewhere. It returns and the interval exchange transformation can be constructed from the result exactly if no edge of the component is vertical and every line that goes up from a vertex of the component crosses the half edge at some time. When makeUniqueLargeEdges returns, no half edge is vertical, each component has exactly one large edge, its interval exchange transformation can be constructed, and, unless it has a single interval, its first and its last interval at the top differ from those at the bottom.", "quantifier": "every closed surface, every vertical direction, every large half edge, every choice among large edges of the same length", "why_tests_cant": "Whether the flips come to an end depends on where infinitely many lines go; a test that does not return only shows that it has been too slow, and tests never run the surfaces on which the loop is infinite.", "anchors": ["libflatsurf/src/interval_exchange_transformation.cc:82-143", "libflatsurf/src/interval_exchange_transformation.cc:236-267", "libflatsurf/src/vertical.cc:222-241"]}
{"id": "C69", "title": "Moving points along vectors", "statement": "Adding a nonzero vector to a point that is a vertex of angle 2\u03c0 follows the ray with that slope: the result is the point of the surface where the segment ends, also when it passes through faces and over other vertices of angle 2\u03c0. If the point is a vertex of a different angle, or if the segment meets a vertex of a different angle before its end, an exception is thrown. One of these is always the case, and the search for the end of the segment comes to an end. For points that are not vertices, when the end is in the same face, the result is that point.", "quantifier": "every closed surface, every vertex, every vector", "why_tests_cant": "The segment can cross arbitrarily many faces and vertices, and which branches of the search are visited depends on exact comparisons of directions; a test follows a few segments only.", "anchors": ["libflatsurf/src/point.cc:119-144", "libflatsurf/src/point.cc:357-469", "libflatsurf/src/saddle_connections_iterator.cc:327-410", "libflatsurf/src/saddle_connections_iterator.cc:675-707"]}
{"id": "C70", "title": "Shifting the vertices of a surface", "statement": "Adding a shift (a vector for each half edge, such that the triangles still close up) to a closed surface, operator+ of FlatTriangulation, gives the surface that arises when all vertices move at constant speed for one unit of time: a sequence of motions during which all triangles stay nondegenerate, and of flips of edges in convex quadrilaterals, at the end of which nothing remains to be shifted. No exception is thrown as long as vertices do not collide along an edge. When no triangle degenerates, the triangulation does not change and the shift is added to each vector. The total area of the result is the one obtained from the shifted vectors of the original triangulation, and the angles at the vertices are unchanged. An exception is thrown when an edge shrinks to a point before the end.", "quantifier": "every closed surface, every shift, every coordinate type with exact division, every number of flips", "why_tests_cant": "Which edges are flipped, how often, and at which times depends on comparing roots of polynomials; a test sees finitely many deformations, and that the result is reached by a continuous deformation cannot be read off from the two surfaces.", "anchors": ["libflatsurf/src/flat_triangulation.cc:79-315", "libflatsurf/src/quadratic_polynomial.cc:36-145", "libflatsurf/src/vector.cc:204-225"]}
{"id": "C71", "title": "Collapsing an edge", "statement": "Collapsing an edge of a closed triangulation whose two triangles have at most one other edge in common gives a closed triangulation with three edges and two triangles less: all other triangles are the same, with the two remaining sides of each removed triangle identified. This covers all edges of flat surfaces with two different ends. Vectors and sets of edges attached to the triangulation stay attached to the edges that remain. When the edge has two different ends, these become a single vertex, and all other vertices are unchanged. Edges at the boundary are rejected. Adding a shift to a surface, operator+ of FlatTriangulation, at the end of which exactly one such edge is a point gives a surface that is obtained by moving vertices, flipping other edges and collapsing this edge; the total angle of the new vertex is the sum of those at the ends of the edge minus 2\u03c0, and the other angles stay the same.", "quantifier": "every closed triangulation, every edge whose two triangles have at most one other edge in common, every attached vector and edge set, every such shift", "why_tests_cant": "The edges are renumbered such that the labels have no gaps, in a way that depends on which of the dropped edges have the highest labels, and the faces are rewired by six transpositions that depend on each other; a test sees finitely many labelings.", "anchors": ["libflatsurf/src/flat_triangulation_combinatorial.cc:165-183", "libflatsurf/src/flat_triangulation_combinatorial.cc:256-385", "libflatsurf/src/flat_triangulation.cc:246-300", "libflatsurf/src/tracked.cc"]}
{"id": "C72", "title": "Eliminating marked points", "statement": "eliminateMarkedPoints removes vertices of total angle 2\u03c0 one after the other. In each step, the vertex is moved along an edge to another vertex, a shortest one at the vertex, while everything else stays where it is, and the edge is collapsed; the total angles of the remaining vertices do not change. When no marked point is joined to another vertex, the surface is returned as it is. The result of a connected surface has no marked points if there was a vertex of another angle, and a single vertex otherwise. There is no error, and points of minimal degree are preferred.", "quantifier": "every closed surface, every coordinate type with exact division, every number and position of marked points", "why_tests_cant": "Tests have a handful of surfaces with one or two marked points; whether an edge collapses cleanly depends on all edges that the moving point meets, and the result of one step is the input of the next.", "anchors": ["libflatsurf/src/flat_triangulation.cc:317-412", "libflatsurf/src/flat_triangulation.cc:79-315"]}
{"id": "C73", "title": "Directions in retriangulations", "statement": "Let a retriangulation be based on two saddle connections x in the domain and y in the codomain that start at corresponding vertices of the same total angle and that have the same direction. Given a direction, i.e. a half edge and a vector in the sector at that half edge, at the vertex where x starts, GenericRetriangulationDeformationRelation::source() terminates and answers a half edge of the codomain whose sector contains the vector, such that the total angle from y to the answer is the total angle from x to the given direction. There is only one such half edge; in particular when domain and codomain and x and y are the same, then it answers the given half edge.", "quantifier": "for all surfaces, half edges, vectors, and base saddle connections at vertices of any angle", "why_tests_cant": "tests map a few paths between surfaces that differ by a few flips; at vertices of large angle the many sectors that contain a vector are only distinguished by counting full turns, and no test looks at all of these", "anchors": ["libflatsurf/src/generic_retriangulation_deformation_relation.cc:210-238", "libflatsurf/src/generic_retriangulation_deformation_relation.cc:310-324", "libflatsurf/src/generic_retriangulation_deformation_relation.cc:340-351"]}
{"id": "C74", "title": "Saddle connections from a vector", "statement": "SaddleConnection::inSector(surface, source, vector) terminates; it returns the saddle connection that starts in the sector counterclockwise next to source with the given vector when there is one, and it throws when the vector is not in that sector or when there is no such saddle connection. A result is always a saddle connection of the surface that starts at source, in the direction of the vector, whose squared length is less than one more than the squared length of the vector, and if the saddle connection in that direction is not longer than the vector, then it is the result. inPlane() and clockwise() do the same in the sector that is found by turning around the vertex, and counterclockwise() returns the given chain in the first sectors at source and target that contain its vector.", "quantifier": "for all surfaces without collapsed edges, half edges, and non-zero vectors with coordinates in any exact subring of the reals", "why_tests_cant": "tests construct a few saddle connections of a few surfaces; whether another saddle connection can be returned for a vector depends on the length and the marked points on the way", "anchors": ["libflatsurf/src/saddle_connection.cc:134-147", "libflatsurf/src/saddle_connection.cc:173-195"]}
{"id": "C75", "title": "Straight paths in retriangulations", "statement": "GenericRetriangulationDeformationRelation maps a straight path that starts in a direction at a vertex with a known counterpart to the straight path of the same vector that starts at the same angle in the codomain: when in the codomain that straight path is a sequence of saddle connections through marked points, then the result is that sequence, and the computation terminates.", "quantifier": "for all closed surfaces, for all vectors, for any number of marked points on the path", "why_tests_cant": "tests map single saddle connections between surfaces that differ by flips; paths across several marked points are not tested", "anchors": ["libflatsurf/src/generic_retriangulation_deformation_relation.cc:174-206"]}
{"id": "C76", "title": "Crossings of saddle connections", "statement": "SaddleConnection::path() and crossings() terminate and list exactly the half edges that the saddle connection crosses, in the order in which they are crossed: walking from triangle to triangle from its source to its target, each reported half edge separates a triangle from the next one. Each intersection is reported relative to the start of its half edge such that relative() is its position, strictly between 0 and 1, on the half edge, and the intersections are at strictly increasing positions along the saddle connection. For a half edge of the triangulation, the list is empty. The list is determined by the surface, the source and the vector.", "quantifier": "for all closed surfaces and all their saddle connections of any length", "why_tests_cant": "tests compare the crossings of a few short saddle connections; the search skips parts of the sector depending on all vertices that are visible on the way", "anchors": ["libflatsurf/src/saddle_connection.cc:251-285", "libflatsurf/src/saddle_connections_iterator.cc:327-410", "libflatsurf/src/saddle_connections_iterator.cc:665-707"]}
{"id": "C77", "title": "Triangulations from faces", "statement": "FlatTriangulationCombinatorial(faces) accepts every list of triangles in which no half edge shows up twice and each edge shows up. The triangles are the faces of the result and the half edges that are in no triangle are its boundary. Half edges of the result leave the same vertex exactly if turning around the corners of the triangles leads from one to the other, and there is at most one boundary half edge at each vertex. The result does not depend on the order of iteration of the hash map that is used, and a triangulation without boundary is recovered from any list of its faces.", "quantifier": "for all lists of triangles that can be glued, in any order and rotation, with any number of boundary components", "why_tests_cant": "tests build a few surfaces from faces; the vertices are found by joining partial chains of corners whose end points are updated in an order that depends on the order of the triangles", "anchors": ["libflatsurf/src/flat_triangulation_combinatorial.cc:56-103", "libflatsurf/src/permutation.cc:100-111"]}
{"id": "C78", "title": "Sampling saddle connections", "statement": "On a closed surface, incrementing the iterator of SaddleConnectionsSample always ends, whatever the random numbers are. It returns an actual saddle connection of the surface that starts in the sector that was picked and is longer than the lower bound; no saddle connection is returned twice. Each saddle connection that is longer than the lower bound can be returned. With an upper bound, or when there are no sectors, an exception is thrown.", "quantifier": "for all closed surfaces, lower bounds, sets of whole sectors, and all outcomes of the random choices", "why_tests_cant": "sampling is random so that tests see a few runs only; each call walks through the unbounded search, skipping one side of each saddle connection that it passes, and nothing in the code bounds the number of triangles that it crosses", "anchors": ["libflatsurf/src/saddle_connections_sample_iterator.cc:53-185", "libflatsurf/src/saddle_connections_iterator.cc:327-410", "libflatsurf/src/saddle_connections.cc:190-193"]}
{"id": "C79", "title": "Paths under shifts of vertices", "statement": "When the deformation returned by adding vectors to a surface (a ShiftDeformationRelation) is applied to a path, each saddle connection is replaced by a sequence of half edges that is homotopic to it, from the vertex where it starts to the vertex where it ends, and these half edges are replaced by their images. So the image of a path is a path from the image of its start to the image of its end, and its vector is what results from unfolding the triangles that the path crosses with the new vectors of their sides; it is linear in the path if the half edges are mapped linearly. The case that is marked as unreachable is not reached.", "quantifier": "for all closed surfaces, all paths of saddle connections, and all assignments of paths to the half edges", "why_tests_cant": "a saddle connection crosses arbitrarily many triangles, and each crossing enters the image through one of two cases that depend on the side on which the next edge is; tests map a few half edges", "anchors": ["libflatsurf/src/shift_deformation_relation.cc:43-84", "libflatsurf/src/shift_deformation_relation.cc:109-119", "libflatsurf/src/saddle_connection.cc:250-285"]}
{"id": "C80", "title": "Saddle connections in the direction of a Vertical", "statement": "SaddleConnection::inSector with a Vertical throws an exception if the direction is not in the sector at the half edge. Otherwise, if there is a saddle connection in this sector and in this direction, that saddle connection is returned, however long it is. The deprecated functions inPlane, alongVertical, and counterclockwise return what inSector returns for the sector that they single out. If there is no saddle connection in the direction, the function does not return.", "quantifier": "for all surfaces, all sectors that are in triangles, and all directions; for all ways to sort connections of the same length", "why_tests_cant": "the saddle connection can be arbitrarily long, and the bounds on the length are multiplied until it is found; that a search goes on for ever cannot be observed by a test", "anchors": ["libflatsurf/src/saddle_connection.cc:149-161", "libflatsurf/src/saddle_connection.cc:168-171", "libflatsurf/src/saddle_connection.cc:197-207", "libflatsurf/src/saddle_connections_by_length_iterator.cc:76-102"]}
{"id": "C81", "title": "The sector of a direction in a half plane", "statement": "FlatTriangulation::sector with a half edge, a Vertical, and a direction throws an exception unless both the half edge and the direction are strictly inside the half plane of directions that enclose an angle of less than \u03c0/2 with the Vertical. Otherwise, it returns the sector that is reached by turning from the half edge to the direction inside that half plane, and not the one of another sheet at a cone point; this is the sector that the function without the Vertical returns. SaddleConnection::inHalfPlane returns what inPlane returns for the vector.", "quantifier": "for all surfaces, all half edges at vertices that are not on the boundary, all verticals and directions, at cone points of any angle", "why_tests_cant": "the loops turn until the half plane is left, by a number of steps that depends on the surface, and at cone points the direction is met many times; tests look at a few half edges", "anchors": ["libflatsurf/src/flat_triangulation.cc:856-870", "libflatsurf/src/saddle_connection.cc:163-166"]}
