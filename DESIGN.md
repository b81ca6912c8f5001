# Design of the formal model of libflatsurf

Subject: `/repo/libflatsurf` (C++).  Prover: Coq 8.16.1 (kernel + standard
library, no other library is used by the theorems).  Properties: `properties.jsonl`; status per
property: `MANIFEST.json`.

## Method

* Each modelled C++ function is a total Gallina function whose comment cites
  file and lines.  Loops become structural recursion or explicit fuel.
* Outcomes: `Ok v` (normal return), `Throw` (a `LIBFLATSURF_CHECK*` or
  `throw`), `UB` (out of bounds access and other undefined behaviour),
  `OutOfFuel` (loop did not finish within the fuel given to the model; theorems
  either show that this does not occur or quantify over all fuel).
* Build mode: release (`NDEBUG`).  `LIBFLATSURF_CHECK*` always throws;
  `LIBFLATSURF_ASSERT*`/`assert` are absent, their conditions appear as
  hypotheses of theorems where the code relies on them.
* Half edges are modelled by their index (`nat`); `neg` flips the lowest bit.
* Coordinates: the record `ExactReal` (a carrier with decidable comparison and
  exact ring operations, with a denotation in Coq's real numbers that is a ring
  homomorphism and reflects `<` and `==`).  All supported exact coordinate types
  (`mpz`, `mpq`, `renf_elem`, `exactreal::Element`, and `long long` as long as
  nothing overflows) satisfy this interface.  Theorems quantify over every such
  record; Examples use the instances for Z and Q, for which the record is
  constructed (so the interface is satisfiable).
* Properties are stated in `*Props.v` files with small independent
  specifications (real geometry, bijections, sets) and closed by `exact`.
  Every property file ends its theorems with `Print Assumptions`.
  `Example`s beside the theorems exhibit non trivial inputs that meet the hypotheses.

## Trusted base

* The Coq kernel and its VM (`vm_compute` is used in Examples and in closed
  refutations).
* Axioms of the Coq standard library reported by `Print Assumptions`.  Theorems
  about combinatorics depend on none ("Closed under the global context").
  Theorems that mention real numbers depend on the axioms of
  `Coq.Reals`: `ClassicalDedekindReals.sig_forall_dec`,
  `ClassicalDedekindReals.sig_not_dec` and
  `FunctionalExtensionality.functional_extensionality_dep` (and some of them on
  `Classical_Prop.classic`); the next section lists them for each theorem.
  No axiom is declared in this development.
* The translation of C++ to Gallina, made by hand, cited line by line.
* External libraries are not modelled: GMP/FLINT/Arb/e-antic/exact-real are
  assumed to compute exactly (or, for Arb, to enclose); intervalxt, spimpl,
  sigslot, rx-ranges, cereal are represented by their documented effect
  (cereal: writes and reads back the same primitive values; `spimpl` pointers
  compare by address).

## Assumptions of each theorem

As listed by `Print Assumptions`.  Generated for all statements whose names start with the id of a property.

* No axioms ("Closed under the global context"):
  C01_edge_identifies_opposites, C01_edge_index_round_trip, C01_edge_positive, C01_id_round_trip, C01_index_round_trip, C01_negation, C02_cycles, C02_cycles_accepted, C02_cycles_iff_lemma, C02_cycles_lemma, C02_pairs, C02_pairs_accepted, C02_pairs_iff_lemma, C02_pairs_lemma, C02_vector, C02_vector_accepted, C02_vector_lemma, C03_cancel_lemma, C03_equal_lemma, C03_equality, C03_inverse, C03_inverse_lemma, C03_mismatch_lemma, C03_product, C03_product_lemma, C03_product_with_inverse_trivial, C03_size_mismatch_rejected, C03_trivial, C03_trivial_lemma, C04_left_is_inverse_cycle, C04_left_lemma, C04_left_refuted, C04_reject_lemma, C04_repeated_entries_rejected, C04_right, C04_right_lemma, C05_cycle, C05_cycle_lemma, C05_cycles, C05_cycles_lemma, C05_drop, C05_drop_duplicates_refuted, C05_drop_lemma, C05_round_trip, C05_round_trip_lemma, C06_edge_set_equality_refuted, C06_history, C06_history_lemma, C06_iteration_lemma, C06_iteration_with_query_refuted, C07_accepts, C07_construction, C07_construction_cycles, C07_flip_history, C07_reachable, C08_flip_defined, C08_flip_effect, C08_flip_four, C08_flip_twice, C08_rejected_partial, C08_rejected_unchanged_refuted, C09_recomputed, C09_source, C09_vertex_equality, C10_clone, C10_equality_partial, C10_equality_refuted, C10_involution, C10_reversed, C11_action, C11_identity, C11_rejects, C11_renames, C12_insert, C12_rejects, C13_closed, C13_loop_refuted, C13_pinched_refuted, C13_rejects, C13_slit_partial, C39_equal, C39_representative, C44_edge_map, C44_edge_set, C44_erase, C44_half_edge, C44_half_edge_map, C44_half_edge_map_refuted, C44_make_last, C44_odd_half_edge_map, C44_swap, C50_product_overflow, C50_product_partial, C50_product_refuted, C50_quotient_minimum, C50_quotient_partial, C50_quotient_refuted, C71_collapse, C71_rejected, C71_vertices, C77_closed, C77_faces, C77_vertices.

* `ClassicalDedekindReals.sig_forall_dec`:
  C16_zero_rejected, C19_equality, C20_representatives, C21_rejected, C26_product_stale, C38_area_open, C38_closed, C38_iterator, C38_loop, C38_splice, C43_bound, C43_edge, C43_half_edge, C43_permutation, C43_vector, C43_vertex, C47_completely_periodic, C47_has_cylinder, C55_vertices, C66_boundary, C78_bound, C79_trivial.

* `ClassicalDedekindReals.sig_forall_dec`, `FunctionalExtensionality.functional_extensionality_dep`:
  C14_antisymmetric, C14_ccw_exact, C14_orientation_exact, C14_scaling_invariant, C15_ccw, C15_ccw_filtered, C15_equality_partial, C15_equality_refuted, C15_length_filtered, C15_nonzero, C15_orientation_filtered_refuted, C15_orientation_partial, C15_orientation_refuted, C16_partition, C17_slope, C17_slope_strict_weak_order, C18_mpq, C19_clone, C19_constructor, C19_flip, C19_function_constructor_refuted, C19_history, C19_rejected, C19_relabel, C19_slit, C20_area, C20_flips, C20_positive, C21_apply, C21_area, C21_composition, C21_scale, C22_circle_exists, C22_circumcircle, C22_flip, C22_flip_back, C23_boundary_refuted, C23_delaunay, C23_terminates_integers, C23_terminates_partial, C23_terminates_rationals, C25_in_half_plane, C26_boundary_of_triangle, C26_product_refuted, C26_vector_partial, C27_coefficients, C27_equality, C27_iteration, C27_nested_iteration_refuted, C28_constructor, C28_constructor_vertex, C28_coordinates, C28_equality, C28_hash, C28_hash_digits, C28_in, C28_on, C28_vertex, C29_crossed, C29_roundtrip, C29_translate_in_face, C29_vector, C30_bijection, C30_image, C30_section, C31_throws_refuted, C32_section_exists, C32_section_orientation, C32_section_refuted, C32_section_scalar, C33_positive, C33_value, C35_chain_refuted, C35_deferred_moves, C36_pruning, C38_append_itself_refuted, C38_area, C38_equality, C38_reverse, C40_boundary_refuted, C40_isomorphic, C40_minimum, C40_relabel, C40_representative, C41_invariant, C41_orthogonal, C41_orthogonal_refuted, C41_orthonormal, C41_walkers, C42_chains, C42_equivalence, C42_half_edge, C42_hash_refuted, C42_negative, C43_archive, C43_boundary_refuted, C43_flat_boundary_refuted, C43_flip_refuted, C45_constructor, C45_flip, C45_queries, C46_boundary, C46_classify, C46_components, C46_components_partial, C46_components_refuted, C47_parabolic, C48_associative_refuted, C48_points_refuted, C48_section_refuted, C48_trivial_refuted, C49_refuted, C49_terminates_partial, C51_constructor, C52_order, C52_refuted, C52_relative, C52_reversed, C53_preserving, C53_refuted, C53_reversing_edge, C53_reversing_interior, C53_trivial, C56_boundary_refuted, C57_order_refuted, C58_shortest, C58_shortest_along, C59_vertex, C63_combinatorial, C66_cells, C66_cells_result, C66_default, C66_disconnected_refuted, C66_faces, C66_result, C67_constructor, C68_forever_refuted, C68_unique, C69_inside, C70_area, C70_rejected, C70_simple, C71_collapsible, C72_degree_refuted, C72_error_refuted, C76_order, C76_path, C76_unique, C78_empty_refuted, C78_reached, C79_connected, C79_image, C79_linear, C79_trivial_refuted, C79_vector.

* `ClassicalDedekindReals.sig_forall_dec`, `ClassicalDedekindReals.sig_not_dec`, `FunctionalExtensionality.functional_extensionality_dep`:
  C15_length, C17_length, C18_comparison, C18_constructors, C18_enclosure, C18_positive, C18_scaling, C18_total_order, C26_bounds_partial, C34_all, C34_bound, C34_lower_bound, C34_sector_at, C34_source, C47_completely_periodic_refuted, C47_parabolic_refuted, C54_less_linear, C54_less_partial, C54_less_refuted, C54_less_terminates, C54_root, C54_root_first, C54_root_refuted, C54_root_terminates, C55_angle, C55_turn, C62_relabel, C70_integers_refuted, C71_along, C71_shift, C73_unique.

* `ClassicalDedekindReals.sig_forall_dec`, `Classical_Prop.classic`, `FunctionalExtensionality.functional_extensionality_dep`:
  C67_contours, C67_first_return, C67_forget, C67_lengths, C68_all, C68_terminates.

* `ClassicalDedekindReals.sig_forall_dec`, `ClassicalDedekindReals.sig_not_dec`, `Classical_Prop.classic`, `FunctionalExtensionality.functional_extensionality_dep`:
  C16_sector, C24_flips, C24_gauss_bonnet, C24_total_angle, C25_cover, C25_in_sector, C25_sector_clockwise_partial, C25_sector_clockwise_refuted, C25_sector_counterclockwise, C25_sector_from_clockwise_partial, C25_sector_from_clockwise_refuted, C25_sector_from_counterclockwise, C25_sector_plane, C25_sector_rejected, C31_edge, C31_face_partial, C31_face_refuted, C31_other_faces, C31_surface_refuted, C34_between, C34_refine, C34_search, C34_sector, C37_bounded, C37_unbounded, C48_associative, C48_paths, C48_paths_refuted, C48_points, C48_rejected, C48_section, C48_unit, C51_compare, C51_forget, C51_push_pop, C51_repeated, C51_subtract, C51_sum, C55_ccw, C55_defined, C56_all, C56_both_directions, C56_sectors, C59_insert, C59_kept, C60_insert_at, C60_kept, C60_rejected, C61_half_edge, C61_history, C61_path, C61_refuted, C61_section, C62_half_edge, C62_linear, C62_product, C63_linear, C64_canonical, C64_isomorphic, C64_named, C64_representative, C64_total, C65_isomorphisms, C69_along_edge, C69_blocked, C69_over_singularity_refuted, C69_singular, C69_stays, C69_terminates, C69_total, C69_unique, C69_vertex, C69_zero, C69_zero_refuted, C70_angles, C70_parallel, C70_shift, C71_angles, C71_flips, C72_choice, C72_complete, C72_eliminate, C72_levels, C72_single, C72_step, C72_unchanged, C73_identity, C73_source, C74_chain, C74_chain_plane, C74_clockwise_partial, C74_found, C74_in_plane, C74_in_sector, C74_vector_refuted, C75_segment, C75_straight, C78_half_edges_refuted, C78_sample, C80_counterclockwise, C80_ends_refuted, C80_in_sector, C80_plane, C80_vertical, C81_in_half_plane, C81_plane, C81_sector.

## Which code is modelled

| Coq file | Code (in `/repo/libflatsurf`) | Simplified |
| --- | --- | --- |
| `HalfEdge.v` | `half_edge.cc`, `edge.cc` | ids are Z, no overflow of int |
| `Perm.v` | `permutation.cc`, `permutation.ipp` | data vectors are lists; random permutations are not modelled |
| `IndexedSet.v` | `indexed_set.hpp`, `edge_set.cc`, `half_edge_set.cc` | dynamic bitset is `list bool` |
| `Combinatorial.v` | `flat_triangulation_combinatorial.cc` without collapse(), which is in `Collapse.v`, and the constructor from faces, which is in `Faces.v` | signals of `change` are not part of this file |
| `Faces.v` | `flat_triangulation_combinatorial.cc` 56-103 (constructor from faces) | the order of iteration of std::unordered_map is a parameter |
| `ExactReal.v` | interface of the coordinate types | external libraries |
| `Sqrt2.v` | - | an instance of the coordinate interface with irrational ratios, used in examples |
| `Vector.v` | `vector.cc` (exact types), `bound.cc` | one definition for all exact types; `long long` overflow excluded |
| `Arb.v` | `vector.cc` (`Vector<Arb>` and the filters) | balls with rational center and radius, any sound rounding |
| `FlatTri.v` | `flat_triangulation.cc`: constructors, clone, slit, relabel, flip, area2, scale, applyMatrix, convex, inSector, sector, delaunay, angle, ==, shortest | approximations are exact; sector() variant with `Vertical`, insertAt, eliminateMarkedPoints, operator+ and isomorphism are not in this file |
| `Chain.v` | `chain.cc`, `chain_vector.cc`, `chain_iterator.cc`: constructors, copies, +=, -=, unary minus, *=, coefficients, vectors with their caches and cost model, comparisons, ==, bool, hash, iteration | FLINT integers are modelled by their documented behaviour (word or mpz, promote, demote); all chains of a program live on one surface that does not change; Arb operations are any sound operations |
| `Point.v` | `point.cc`, `flip_deformation_relation.cc` (points) | the surface of a point is an argument; `operator+=` only as long as the translation stays in the face; the hash of numbers is any function of their quotient (`mpq`, `mpz`) or the binary digits (other types); how hashes are combined is arbitrary |
| `Translate.v` | point.cc 119-144, 357-469 (`operator+=`, `operator-=`); saddle_connections_iterator.cc 327-460, 665-707 (`skip`, `skipSector`, `incrementWithIntersections`, `incrementWithCrossings`); flat_triangulation.cc 942-950 | moving a point along a vector; a point that is not a vertex and leaves its face (406-415) is not modelled, the result is `None` |
| `Sample.v` | `saddle_connections_sample_iterator.cc` 53-185; `saddle_connections.cc` 190-193 | random numbers are arguments; the weighing of the two sides with doubles (lines 89-150) and its exception are not modelled |
| `ShiftPath.v` | `shift_deformation_relation.cc` 43-84 (`operator()(Path)`), 109-119 (`trivial`) | the images of the half edges are given by a list; how `operator+` finds them (flat_triangulation.cc 304-313) is not modelled. Specification in `ShiftPathSpec.v`, proofs in `ShiftPathFacts.v`, theorems in `ShiftPathProps.v` |
| `Along.v` | `saddle_connection.cc` 149-161 (`inSector` for a Vertical), 168-171 (`inPlane`), 197-207 (`counterclockwise`, `alongVertical`) | of the Vertical only its vector is used. Proofs in `AlongFacts.v`, theorems in `AlongProps.v` |
| `HalfPlane.v` | `flat_triangulation.cc` 856-870 (`sector` with a Vertical); `saddle_connection.cc` 163-166 (`inHalfPlane`) | of the Vertical only its vector is used. Theorems in `HalfPlaneProps.v` |
| `Shift.v`, `Collapse.v` | flat_triangulation.cc 79-315 (`operator+`); flat_triangulation_combinatorial.cc (`collapse`) | the codomain of the deformation; the Deformation object that maps paths is in `ShiftPath.v`; collapsing is proved correct for single edges with different ends |
| `Eliminate.v` | flat_triangulation.cc 317-412 (`eliminateMarkedPoints`) | the codomain of the deformation; how saddle connections are mapped is not modelled: the image of the half edge tracked by line 378 is taken to be a single saddle connection |
| `Linear.v` | `linear_deformation_relation.cc`: section, operator()(Point), trivial | images of paths are in `Deform.v`; exact division is a parameter |
| `Quadratic.v` | `quadratic_polynomial.cc`: operator(), positive, root, operator< | the balls computed by Arb for the solutions of the quadratic formula are arbitrary functions of polynomial and precision (`solver`); theorems assume that they contain the solution (`sound`) and, for termination, that they become small (`convergent`) |
| `UnionFind.v` | `util/union_find.ipp` | nodes are numbered, the state is the list of the parents; the representative is the number of the root |
| `Normalize.v` | `linear_equivalence.cc`: `div`, `orthonormalize`, `orthogonalize`, `normalize`, the matrices in `code` | the division is a parameter with the hypothesis `exact_division`; custom normalization functions are not modelled |
| `FlowSummary.v` | `flow_decomposition.cc`: hasCylinder, completelyPeriodic, parabolic | components are given by `cylinder()`, the first holonomy and `area2()`; boost's tribool and intervalxt's coefficients are modelled from their documentation |
| `Intersection.v` | `half_edge_intersection.cc` | `at()` is not modelled |
| `Tracked.v` | `tracked.cc`: default handlers of swap and erase; `edge_map.hpp`, `half_edge_map.hpp`, `odd_half_edge_map.hpp`; `flat_triangulation_combinatorial.cc:298-317` | the signals that connect a Tracked to its triangulation, attached deformations and saddle connections are not modelled |
| `LongLong.v` | `vector.cc`: products and quotients of `long long` vectors with big integers | `get_sll` of gmpxxll is any function that is the identity on 64 bit integers |
| `Saddle.v` | `saddle_connection.cc`: constructors, vector, chain, source, target, ==, negation, hash, angle, ccw | chains are lists of coefficients without caches; crossings and path are in `Crossings.v`, the search by vector is in `Connect.v`, the one by a Vertical in `Along.v` |
| `Retriangulate.v` | `generic_retriangulation_deformation_relation.cc` 210-238, 310-324, 340-351 | the search for corresponding saddle connections at other vertices (241-302): the pair for the vertex is an argument |
| `Connect.v` | `saddle_connection.cc` 134-147, 173-195; `generic_retriangulation_deformation_relation.cc` 174-206 | functions that take a Vertical are in `Along.v`; the pairs of corresponding saddle connections at the vertices are arguments |
| `Crossings.v` | `saddle_connection.cc` 251-285 (`crossings`, `path`) | - |
| `Path.v` | `path.cc`: negative, ==, closed, reversed, push, pop, +=, +, splice, area; `path_iterator.cc`; the loop of `generic_retriangulation_deformation_relation.cc` over a path | tighten and simple are not modelled; the image of a single segment is in `Connect.v` |
| `Search.v` | `saddle_connections_iterator.cc`: the search (all of it but the functions on the right); `saddle_connections.cc`: bound, lowerBound, source, sector, refine, contains, begin, end | skip, skipSector, incrementWithIntersections are in `Translate.v`; balls are replaced by exact comparisons |
| `ByLength.v` | saddle_connections_by_length_iterator.cc, saddle_connections_by_length.cc | std::sort is any function that sorts by length |
| `Insert.v` | `flat_triangulation.cc` insertAt, insert; insert_marked_point_in_face_deformation_relation.cc and insert_marked_point_on_edge_deformation_relation.cc: construction, point(), operator()(Point) | the deformation is given by its flips and its insertion; images of paths and sections are not modelled; the loops have fuel |
| `Vertical.v` | `vertical.cc` constructor, ccw, orientation, project, projectPerpendicular, large, classifyFace, visit, components; the flip handlers of its caches | surfaces that are not collapsed; the vertical owns its surface; caches are lists of options; recursion has fuel; sets are lists; the unused cache of lengths is left out |
| `Lengths.v` | `lengths.cc` constructor, push, pop, cmp, get, length, forget | labels are indices of edges; the link to a flow decomposition is left out |
| `LengthsSubtract.v` | `lengths.cc` 112-254 (`subtract`, `subtractRepeated`) | the saddle connections on the left of the minuend and across the subtrahends come from the flow decomposition, here they are arbitrary arguments; floor division of intervalxt is an argument with its specification as a hypothesis |
| `IntervalExchange.v` | `interval_exchange_transformation.cc` constructors, edge, operator[], forget; `contour_component.cc` 176-199 (`makeContour`) | surfaces that are not collapsed; the object of the library intervalxt is represented by the two lists of labels, its own constructor (which runs before the checks IE:217-219) is not modelled; the fuel bounds the depth of the recursion of makeContour |
| `UniqueLarge.v` | `interval_exchange_transformation.cc:82-143, 236-267`, `vertical.cc:222-241` | `makeUniqueLargeEdge`, `makeUniqueLargeEdges` for `FlatTriangulation`. Fuel for the loops, which need not end. `std::sort` leaves open which of the longest half edges is last: `tie` chooses among them. The component is a list without duplicates, in the order in which half edges are inserted. The asserts in the tracked set of sources are not modelled; the set is a list. Specification in `UniqueLargeSpec.v`, proofs in `UniqueLargeFlip.v`, `UniqueLargeFlow.v`, `UniqueLargeFacts.v`, `UniqueLargeConverse.v`, `UniqueLargeForever.v`, `UniqueLargeAll.v`, theorems in `UniqueLargeProps.v`. |
| `Serialize.v` | `flatsurf/cereal.hpp` | Archives with named values (JSON). Numbers read back as written. Binary archives, where loading would read the next value because "faces" and "crossings" are written but never read, are not modelled. |
| `Deform.v` | `deformation.cc`; `trivial_`, `flip_`, `linear_`, `combinatorial_`, `slit_`, `composite_deformation_relation.cc`; `deformation_relation.cc` (trivial); `tracked.cc:88-91` | The relations of inserted points are in `Insert.v`; generic retriangulations are in `Connect.v`, shifts in `ShiftPath.v`. A saddle connection here has its own surface and the surface of its chain, as these differ after flips. `DeformSpec.v` says what images should be, `DeformFacts.v`, `DeformPath.v`, `DeformGood.v`, `DeformActs.v`, `DeformCompose.v` are proofs, `DeformProps.v` and `DeformPathProps.v` the theorems. |
| `Equivalence.v` | `impl/equivalence_walker.hpp`, `combinatorial_equivalence_walker.cc`, `combinatorial_equivalence.cc`, `linear_equivalence_walker.cc`, `linear_equivalence.cc`, `combinatorial_` and `linear_equivalence_class_code.cc`, `equivalence_class.cc`, `equivalence.cc` | normalizations given by a callable are not modelled; labels are unbounded; exact division is a parameter; hashes and printing are not modelled. `EquivalenceSpec.v` says what isomorphisms are, `EquivalenceWalk.v`, `EquivalenceSame.v`, `EquivalenceWord.v`, `EquivalenceFacts.v`, `EquivalenceNormal.v`, `EquivalenceCode.v`, `EquivalenceCount.v`, `EquivalenceLinear.v`, `EquivalenceFrame.v`, `EquivalenceMaps.v`, `EquivalenceLinearIso.v`, `EquivalenceLinearCode.v` are proofs, `EquivalenceProps.v` and `EquivalenceLinearProps.v` the theorems. |
| `Isomorphism.v` | `flat_triangulation.cc` 953-1098 (`isomorphism`) | the result is the data of the two relations whose composition is returned (matrix, codomain of the linear map, a pair of half edges); how this composition acts on points and paths is not modelled; the recursion and the loops in cells have fuel; exact division is a parameter. `IsomorphismSpec.v` says what isomorphisms are, `IsomorphismFacts.v`, `IsomorphismFaces.v`, `IsomorphismCells.v` (cells are convex, the search sees all of them) and `IsomorphismCount.v` (maps of cells are injective) are proofs, `IsomorphismProps.v` and `IsomorphismCellsProps.v` the theorems. |

## Not modelled

Object lifetime (`ReadOnly`, `WeakReadOnly`, `ManagedMovable`), streams and
printing, Python bindings, intervalxt (so the induction inside of
`FlowComponent::decompose`), performance/caching parameters except where a
property is about caches, threads (the library has none).

## Plan per property

* **C01 Half edge ids and indexes round trip** - Model index/id arithmetic over Z and nat; prove round trips by parity case analysis.
* **C02 Permutation objects are bijections with a correct inverse** - Permutation as a pair of lists with an outcome monad (Ok / Throw / UB); prove every Ok result is a bijection with correct inverse; inputs that are not bijections give Throw or UB, never Ok.
* **C03 Permutation algebra** - Same model; composition laws by list extensionality.
* **C04 Multiplying a permutation with a cycle** - Model both loops literally (list updates in order); right multiplication proved equal to composition; left multiplication proved to be composition with the INVERSE cycle, hence the documented law is refuted.
* **C05 cycles() decomposes a permutation** - Model the do-while with fuel = size; prove partition/succession and the constructor round trip.
* **C06 Sets of edges and half edges behave like finite sets under any history** - Bit set as list bool with explicit capacity; refinement to a membership predicate for all operation sequences; EdgeSet::operator== compares pointers, refuted.
* **C07 Triangulations stay well formed under every construction and flip history** - Model constructor, the four cycle multiplications of flip, prove an invariant inductively over flip sequences.
* **C08 A flip has the documented combinatorial effect and only that** - Compute faces after flip from the cycle multiplications; characterise by function equations; 4 flips = identity.
* **C09 Cached vertices stay correct after flips** - Model vertexes as list of half edge lists; refinement: membership sets equal orbits of the vertex permutation after each flip.
* **C10 Triangulation equality and reversal** - Model ==, ~, clone; prove ~~ = id and clone = id; equality refuted for surfaces that differ only in boundary.
* **C11 Relabeling is a group action** - Model relabel as conjugation; prove action laws.
* **C12 insertAt subdivides a face combinatorially** - Model the cycle insertion; prove well-formedness and faces.
* **C13 slit opens an edge** - Model slit; prove for the generic case, refute for degenerate gluings if false.
* **C14 Orientation predicates of vectors are exact** - Vectors over an abstract record ExactReal (exact arithmetic + denotation in R); prove sign equivalences.
* **C15 Interval filtered predicates never lie** - Arb modelled as real interval [lo,hi] with inclusion-monotone operations (assumption on the external library written as an explicit record of hypotheses); prove soundness; == and orientation refuted.
* **C16 inSector is a half open sector test** - Model the branches; spec: exists 0<=.. convex-combination description of ccw sectors over R; nra.
* **C17 Sorting by slope is a strict weak order** - Strict weak order over R.
* **C18 Bounds are sound integer enclosures of lengths** - floor/ceil as operations of the record with their specification.
* **C19 Flat triangulations stay flat under every flip history** - Geometric triangulation = combinatorial one + vector table; invariant over flip sequences.
* **C20 Flips preserve area** - area2 = sum over faces; flip invariance by cross-product algebra and list re-indexing.
* **C21 Linear maps act on surfaces** - Model applyMatrix/scale on vector tables.
* **C22 Delaunay test of an edge** - 3x3 determinant as in code; nra/field identities over R.
* **C23 delaunay() only returns Delaunay triangulations** - Fuelled loop; postcondition at Ok.  Termination: partial.
* **C24 Total angle (Gauss-Bonnet)** - Count per triangle with tie breaks; double counting over half edges.
* **C25 Every direction lies in exactly one sector at a vertex turn** - Sectors around a vertex: counting crossings; partial if covering proof too long.
* **C26 Chains: cached vectors agree with coefficients after every history** - State machine for the two caches with cost model as an arbitrary oracle (so every cost model is covered); invariant over histories with aliasing; *= refuted.
* **C27 Chains form a free abelian group on edges** - Coefficients as list Z; algebraic laws.
* **C28 Points: equality is independent of representation** - Model Point over ExactReal; prove canonical form and equality theorems.
* **C29 Barycentric and Cartesian coordinates of points agree** - Algebraic identities.
* **C30 Mapping points through a flip** - Algebra over two glued triangles.
* **C31 Mapping points through the insertion of a marked point** - Model the loops literally. True for the triangles at the edge and for the first triangle of the loop in the face; refuted otherwise by concrete surfaces (InsertImage.v, InsertImageProps.v).
* **C32 Sections of linear deformations are inverses** - Model section(); refuted; the correct law for scalar multiples shown.
* **C33 Quadratic polynomial positivity** - Model positive(); prove iff over all reals t in [0,1].
* **C34 Refining a search sector is intersection** - Done (SectorProps, SectorTurnProps): sectors are subsets of the directions, and refining intersects them.
* **C35 Search for saddle connections: deferred moves** - Moves as in apply/applyMoves; simulation proof by induction on the queue.
* **C36 Search for saddle connections: pruning is sound** - Convexity argument over R.
* **C37 By-length iteration is sorted and complete** - Bucketed enumeration over abstract finite-in-each-ball collection.
* **C38 Paths: reversal, concatenation and iteration** - Lists and cyclic iterator state.
* **C39 Union find computes the equivalence closure** - Parent-pointer forest with compression; refinement to equivalence closure.
* **C40 Isomorphism codes are complete invariants** - Done: model walkers and the tournament; equal words of two walkers give a map that respects triangles (induction on the walk, the vectors of unions of triangles add up to zero so that all triangles are seen).
* **C41 Normalization matrices** - Field algebra.
* **C42 Saddle connections: equality and hashing** - == vs hash: refuted with two chains of the same vector; negation laws proved.
* **C43 Serialization round trips** - Done: one archive with a list of items and the addresses of their surfaces; boundary and flips while writing refuted.
* **C44 Tracked maps follow the triangulation** - List swap/pop semantics; a == -b refuted.
* **C45 Vertical: cached values agree with the surface** - Done: a history of queries and flips keeps a validity invariant of the caches (VerticalFacts); collapsed surfaces are not modelled.
* **C46 Vertical: classification of faces and components** - Done: classifyFace by sign triples; visit as depth first search with fuel (VerticalComponents); partition refuted in the presence of vertical half edges.
* **C47 Flow decomposition summary queries are sound** - tribool fold; order independence refuted for completelyPeriodic.
* **C48 Composition of deformations** - Done (DeformProps): composition laws on points and paths; false in part, see the theorems C48_..._refuted.
* **C49 Mapping paths through a retriangulation terminates** - Loop with fuel; refuted: for a two-segment non collinear path no fuel suffices.
* **C50 Machine integers scaled by big integers** - 64-bit arithmetic over Z with explicit overflow = UB; refuted at the bounds.
* **C51 Running lengths of intervals** - Done: state machine over the label stack; the loops that search for the sectors of the new connection by signs of determinants (`half_plane` in LengthsFacts).
* **C52 Intersections along a half edge are ordered** - Comparison by cross multiplication; refuted if negative denominators are reachable.
* **C53 Linear deformations map points** - Linear map on corners of triangles; points inside faces refuted for negative determinant.
* **C54 Approximating and comparing critical times** - Abstract sound balls; termination by doubling the precision; refuted for close roots and for polynomials with another root in common.
* **C55 Angles between saddle connections** - Angles in the plane are lifted to turns around the vertex; the loop of angle() counts half turns.
* **C56 The search finds every saddle connection once** - Unfolding of the surface into the plane as an inductive relation; block lemma for the stack of states by induction on the depth of the unfolding, which is bounded inside the radius.
* **C57 Saddle connections are sorted by angle** - Refuted by running the model on a torus.
* **C58 The shortest edge is a shortest edge** - Proved from the model of std::min_element in `FlatTri.v`; see `ShortestProps.v`.
* **C59/C60 Inserting marked points** - Invariant of the flip loop: the vector stays in the sector of a half edge that is never flipped. The subdivided surfaces are specified by their faces and vectors; a general lemma on renamed corners gives the angles. Termination of the flips is not proved, the statements are about calls that return.
* **C61 Flips keep paths** - Sectors before and after a flip by signs of determinants; refuted for linear maps applied after a flip as the chain stays over the old surface.
* **C62 Linear maps and relabelings map paths and half edges** - One renaming and one matrix describe every product of relations without flips.
* **C63 automorphisms() counts symmetries** - Surviving walkers correspond to the maps from the first one.
* **C64/C65 Linear equivalences** - The normalization matrix sends the basis at a walker to a standard basis, so it is transported by matrices of the group; words with vectors then determine the surface up to such a matrix. Deformations are tracked through their action on half edges.
- C66 (`isomorphism()`): `C66_faces` and `C66_result` for the kind FACES, `C66_cells` and `C66_cells_result` for the kind DELAUNAY_CELLS, `C66_boundary` for surfaces with boundary. The surfaces need not be Delaunay triangulated for these theorems. `C66_disconnected_refuted`: for surfaces with several components only one component is compared.
* **C67 Interval exchange transformations** - Done: a contour is the list of leaves of a tree of backward triangles (IntervalExchangeFacts); the flow crosses these triangles one by one (IntervalExchangeFlow); with a unique large edge the trees above and below have the same leaves as every half edge leads to a wide half edge through wider and wider triangles (IntervalExchangeLarge); the checks of the constructor (IntervalExchangeMade).
* **C68 Making large edges unique** - Done: a flip of a wide edge keeps lines but shortens the one from the vertex below the edge, so the total number of crossings until the lines reach the edge decreases (UniqueLargeFlow, UniqueLargeFacts); conversely lines can be followed back through the flips, and they reach a unique large edge through wider and wider triangles (UniqueLargeConverse); tori with a vertical edge are flipped forever (UniqueLargeForever); components whose large edge has been chosen are not touched anymore (UniqueLargeAll).
* **C69 Moving points along vectors** - Done for vertices: the steps of the search when parts of it are skipped (TranslateRun), what the loop finds (TranslateFacts), the recursion over marked points (TranslateMove), and that the segment ends somewhere or is blocked (TranslateTotal, with the bound of SearchDepth on the number of edges). Found: along an edge, the vertex at its end is ignored whatever its angle is (C69_over_singularity_refuted); adding the zero vector to a vertex does not end (C69_zero_refuted). Points that are not vertices: what is found is right (C69_inside), and it is found when the point stays in a face (C69_stays, TranslateStay). Missing: points that are not vertices and leave their face.
* **C70 Shifting vertices** - Done for shifts that do not collapse edges: one pass of the search for the next flip (ShiftFacts), the recursion (ShiftRun), what is invariant (ShiftInvariants), angles by continuity over the reals (ShiftAngle), theorems, examples and the refutation for integer coordinates (ShiftProps). Missing: that the recursion ends, and shifts that collapse edges at the end.
* **C71 Collapsing an edge** - Done: faces (CollapseFacts), the whole run with relabeling and attached data (CollapseRun), vertices (CollapseVertices), the end of a shift (CollapseShift), a shift that flips other edges before the collapse (CollapseMotionSpec, CollapseFlips), theorems and examples (CollapseProps). Not covered: shifts that collapse several edges at once.
* **C72 Eliminating marked points** - Done: the motion of the point along the edge (EliminateMotion), the choice of the edge and the recursion (EliminateFacts), connectedness (EliminateConnected), theorems, examples and refutations (EliminateProps). The total angles after a collapse come from counting the half edges in a direction at each vertex shortly before the end (CollapseCount, CollapseAngle). Missing: that the search for flips ends.
* **C73 Directions in retriangulations** - Done (RetriangulateProps): the direction at the same angle in the codomain; `C73_source`, `C73_unique`, `C73_identity`.
* **C74 Saddle connections from a vector** - Done (ConnectProps): C74_in_sector, C74_found, C74_in_plane, C74_chain, C74_chain_plane; C74_vector_refuted: a saddle connection with another vector can be returned.
* **C75 Straight paths in retriangulations** - Done (ConnectProps): C75_straight, C75_segment.
* **C76 Crossings of saddle connections** - Done (CrossingsProps): C76_path, C76_order, C76_unique.
* **C77 Triangulations from faces** - Done (FacesProps): C77_faces, C77_vertices, C77_closed.
* **C78 Sampling saddle connections** - Done (SampleProps): C78_sample, C78_reached, C78_bound; false in part: C78_half_edges_refuted (the half edges of the triangulation are never returned), C78_empty_refuted (without sectors, the first one is read anyway). Sectors that were restricted by vectors are not covered.
* **C79 Paths under shifts of vertices** - Done (ShiftPathProps): C79_image, with homotopy stated as having the same product in every group for every cocycle on the half edges; C79_vector, C79_linear, C79_connected follow; C79_trivial says what trivial() checks. Refuted: C79_trivial_refuted, a deformation with trivial() true replaces a saddle connection by half edges.
* **C80 Saddle connections in the direction of a Vertical** - Done (AlongProps): C80_in_sector, with all three outcomes; C80_plane, C80_vertical, C80_counterclockwise reduce the other functions to it. Refuted: C80_ends_refuted, on the square torus with coordinates in Z[√2] the search in the direction (2, √2) does not end for any fuel.
* **C81 The sector of a direction in a half plane** - Done (HalfPlaneProps): C81_sector, for vertices that are not on the boundary; C81_plane, C81_in_half_plane compare it to the functions without the Vertical.
