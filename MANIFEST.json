{
 "claims": [
  {
   "property": "C01",
   "status": "proved",
   "theorems": [
    "C01_id_round_trip",
    "C01_index_round_trip",
    "C01_negation",
    "C01_edge_identifies_opposites",
    "C01_edge_positive",
    "C01_edge_index_round_trip"
   ],
   "note": "All ids and indexes over Z and nat."
  },
  {
   "property": "C02",
   "status": "proved",
   "theorems": [
    "C02_vector",
    "C02_vector_accepted",
    "C02_pairs",
    "C02_pairs_accepted",
    "C02_cycles",
    "C02_cycles_accepted"
   ],
   "note": "Constructors from a vector, from pairs and from cycles: acceptance is characterised exactly."
  },
  {
   "property": "C03",
   "status": "proved",
   "theorems": [
    "C03_product",
    "C03_inverse",
    "C03_trivial",
    "C03_equality",
    "C03_product_with_inverse_trivial",
    "C03_size_mismatch_rejected"
   ],
   "note": "Composition, inverse, trivial(), ==, and rejection of different sizes."
  },
  {
   "property": "C04",
   "status": "partial",
   "theorems": [
    "C04_right",
    "C04_left_is_inverse_cycle",
    "C04_left_refuted",
    "C04_repeated_entries_rejected"
   ],
   "note": "Right multiplication and rejection proved. The claim for left multiplication is false: it composes with the inverse cycle (C04_left_refuted, C04_left_is_inverse_cycle)."
  },
  {
   "property": "C05",
   "status": "proved",
   "theorems": [
    "C05_cycles",
    "C05_round_trip",
    "C05_cycle",
    "C05_drop",
    "C05_drop_duplicates_refuted"
   ],
   "note": "cycles(), cycle() and drop(); drop() with repeated items leaves no permutation (C05_drop_duplicates_refuted)."
  },
  {
   "property": "C06",
   "status": "partial",
   "theorems": [
    "C06_history",
    "C06_edge_set_equality_refuted",
    "C06_iteration_with_query_refuted"
   ],
   "note": "Every history of set operations agrees with mathematical sets. EdgeSet equality and iteration while querying are refuted (C06_edge_set_equality_refuted, C06_iteration_with_query_refuted)."
  },
  {
   "property": "C07",
   "status": "proved",
   "theorems": [
    "C07_construction",
    "C07_construction_cycles",
    "C07_accepts",
    "C07_flip_history",
    "C07_reachable"
   ],
   "note": "Constructors from a vertex permutation and from vertex cycles, and all flip histories; release build. The constructor from faces is not modelled yet."
  },
  {
   "property": "C08",
   "status": "partial",
   "theorems": [
    "C08_flip_effect",
    "C08_flip_twice",
    "C08_flip_four",
    "C08_flip_defined",
    "C08_rejected_partial",
    "C08_rejected_unchanged_refuted"
   ],
   "note": "Effect, involution, exact domain and rejection proved. \"Nothing changes on rejection\" is false if only -e is at the boundary (C08_rejected_unchanged_refuted)."
  },
  {
   "property": "C09",
   "status": "proved",
   "theorems": [
    "C09_source",
    "C09_recomputed",
    "C09_vertex_equality"
   ],
   "note": "Cached vertices after all flip histories equal the orbits, the recomputed vertices and decide vertex equality."
  },
  {
   "property": "C10",
   "status": "partial",
   "theorems": [
    "C10_clone",
    "C10_reversed",
    "C10_involution",
    "C10_equality_partial",
    "C10_equality_refuted"
   ],
   "note": "clone, reversal and double reversal proved. == ignores the boundary: C10_equality_refuted; with equal boundary, equality implies the same faces."
  },
  {
   "property": "C11",
   "status": "proved",
   "theorems": [
    "C11_renames",
    "C11_identity",
    "C11_action",
    "C11_rejects"
   ],
   "note": "Action laws and exact rejection for surfaces without boundary; the code rejects surfaces with boundary."
  },
  {
   "property": "C12",
   "status": "proved",
   "theorems": [
    "C12_insert",
    "C12_rejects"
   ],
   "note": "Faces, new vertex, old vertices; rejection at the boundary."
  },
  {
   "property": "C13",
   "status": "partial",
   "theorems": [
    "C13_slit_partial",
    "C13_closed",
    "C13_rejects",
    "C13_loop_refuted",
    "C13_pinched_refuted"
   ],
   "note": "Proved unless both ends of the edge see the same boundary corner first; in that case slit() throws (C13_loop_refuted). Slitting a loop on a closed surface leaves a pinched vertex (C13_pinched_refuted)."
  },
  {
   "property": "C14",
   "status": "proved",
   "theorems": [
    "C14_ccw_exact",
    "C14_orientation_exact",
    "C14_antisymmetric",
    "C14_scaling_invariant"
   ],
   "note": "ccw and orientation against the determinant and the dot product of real numbers, for every exact coordinate type."
  },
  {
   "property": "C15",
   "status": "partial",
   "theorems": [
    "C15_ccw",
    "C15_ccw_filtered",
    "C15_length",
    "C15_nonzero",
    "C15_length_filtered",
    "C15_orientation_partial",
    "C15_orientation_refuted",
    "C15_orientation_filtered_refuted",
    "C15_equality_refuted",
    "C15_equality_partial"
   ],
   "note": "ccw, length and nonzero filters proved sound. orientation() answers OPPOSITE when the dot product may be zero, and == compares x with y (C15_orientation_refuted, C15_orientation_filtered_refuted, C15_equality_refuted)."
  },
  {
   "property": "C16",
   "status": "proved",
   "theorems": [
    "C16_sector",
    "C16_zero_rejected",
    "C16_partition"
   ],
   "note": "Against turning angles of real vectors; partition when the two directions differ; zero vectors are rejected."
  },
  {
   "property": "C17",
   "status": "proved",
   "theorems": [
    "C17_slope",
    "C17_slope_strict_weak_order",
    "C17_length"
   ],
   "note": "CompareSlope and CompareLength."
  },
  {
   "property": "C18",
   "status": "proved",
   "theorems": [
    "C18_enclosure",
    "C18_comparison",
    "C18_constructors",
    "C18_total_order",
    "C18_scaling",
    "C18_positive",
    "C18_mpq"
   ],
   "note": "Bounds of vectors, comparisons, order, scaling; the mpq code equals floor and ceiling."
  },
  {
   "property": "C19",
   "status": "partial",
   "theorems": [
    "C19_constructor",
    "C19_history",
    "C19_flip",
    "C19_rejected",
    "C19_clone",
    "C19_relabel",
    "C19_slit",
    "C19_equality",
    "C19_function_constructor_refuted"
   ],
   "note": "Constructors, clone, relabel, slit, every flip history, rejected flips and == proved for the constructor taking a list of vectors. The constructor taking a function does not check that the function is odd (C19_function_constructor_refuted)."
  },
  {
   "property": "C20",
   "status": "proved",
   "theorems": [
    "C20_area",
    "C20_representatives",
    "C20_positive",
    "C20_flips"
   ],
   "note": "Each triangle counted once, positive, unchanged by every accepted sequence of flips; with or without boundary."
  },
  {
   "property": "C21",
   "status": "proved",
   "theorems": [
    "C21_apply",
    "C21_rejected",
    "C21_area",
    "C21_composition",
    "C21_scale"
   ],
   "note": "Closed surfaces; matrices with determinant zero and surfaces with boundary are rejected (C21_rejected)."
  },
  {
   "property": "C22",
   "status": "proved",
   "theorems": [
    "C22_circumcircle",
    "C22_circle_exists",
    "C22_flip",
    "C22_flip_back"
   ],
   "note": "Circumcircle criterion at both half edges of the edge (so it does not depend on the orientation), flips of non-Delaunay edges are accepted and make the edge Delaunay."
  },
  {
   "property": "C23",
   "status": "partial",
   "theorems": [
    "C23_delaunay",
    "C23_terminates_partial",
    "C23_terminates_integers",
    "C23_terminates_rationals",
    "C23_boundary_refuted"
   ],
   "note": "Postcondition, invariants and absence of exceptions for every closed surface. Termination proved for coordinates in (1/N)Z, so for integers and rationals; not for number fields. With boundary, delaunay() can throw (C23_boundary_refuted)."
  },
  {
   "property": "C24",
   "status": "proved",
   "theorems": [
    "C24_total_angle",
    "C24_gauss_bonnet",
    "C24_flips"
   ],
   "note": "angle() equals the total of the corner angles at every vertex without boundary; Gauss-Bonnet and invariance under flips for closed surfaces."
  },
  {
   "property": "C25",
   "status": "partial",
   "theorems": [
    "C25_in_sector",
    "C25_cover",
    "C25_in_half_plane",
    "C25_sector_plane",
    "C25_sector_counterclockwise",
    "C25_sector_clockwise_partial",
    "C25_sector_clockwise_refuted",
    "C25_sector_from_counterclockwise",
    "C25_sector_from_clockwise_partial",
    "C25_sector_from_clockwise_refuted",
    "C25_sector_rejected"
   ],
   "note": "inSector, the covering of all directions, sector() in a plane and counterclockwise walks proved. Clockwise walks proved except when the direction is in the interior of the initial sector, where the code returns the initial sector, contrary to its documentation (C25_sector_clockwise_refuted, C25_sector_from_clockwise_refuted)."
  },
  {
   "property": "C26",
   "status": "partial",
   "theorems": [
    "C26_vector_partial",
    "C26_bounds_partial",
    "C26_boundary_of_triangle",
    "C26_product_stale",
    "C26_product_refuted"
   ],
   "note": "Every history without *=: exact vector, enclosure by the approximate vector, comparisons with bounds. *= leaves known vectors unchanged (C26_product_stale), so the claim is false for *= (C26_product_refuted)."
  },
  {
   "property": "C27",
   "status": "partial",
   "theorems": [
    "C27_coefficients",
    "C27_equality",
    "C27_iteration",
    "C27_nested_iteration_refuted"
   ],
   "note": "Coefficients, signs, bool, ==, hash and iteration for every history including *=. Two iterators on the same chain that advance from the same position run into undefined behaviour (C27_nested_iteration_refuted). Chains on different surfaces are not modelled."
  },
  {
   "property": "C28",
   "status": "proved",
   "theorems": [
    "C28_constructor",
    "C28_constructor_vertex",
    "C28_equality",
    "C28_hash",
    "C28_hash_digits",
    "C28_in",
    "C28_on",
    "C28_vertex",
    "C28_coordinates"
   ],
   "note": "Closed surfaces. Points of the surface are weighted corners of triangles up to scaling, rotation and gluing; constructors, ==, hash, in, on, vertex and coordinates."
  },
  {
   "property": "C29",
   "status": "proved",
   "theorems": [
    "C29_vector",
    "C29_roundtrip",
    "C29_crossed",
    "C29_translate_in_face"
   ],
   "note": "Closed surfaces; vector(), the constructor from a vector in the face, crossed(), and += within a face."
  },
  {
   "property": "C30",
   "status": "proved",
   "theorems": [
    "C30_bijection",
    "C30_image",
    "C30_section"
   ],
   "note": "Closed surfaces; the flip is a bijection of points, operator()(Point) computes it and the section is its inverse."
  },
  {
   "property": "C31",
   "status": "partial",
   "theorems": [
    "C31_edge",
    "C31_face_partial",
    "C31_other_faces",
    "C31_throws_refuted",
    "C31_surface_refuted",
    "C31_face_refuted"
   ],
   "note": "On an edge: every point of the two triangles at the edge is mapped to the same point of the plane (C31_edge). In a face: only the points in the triangle of the marked point and the side after the corner of the point (C31_face_partial); for others the image throws (C31_throws_refuted) or is the image of another point (C31_face_refuted). Points of all other faces are returned as points of the surface without the marked point (C31_other_faces, C31_surface_refuted)."
  },
  {
   "property": "C32",
   "status": "partial",
   "theorems": [
    "C32_section_refuted",
    "C32_section_scalar",
    "C32_section_exists",
    "C32_section_orientation"
   ],
   "note": "The section divides the entries by the determinant without exchanging them, so it is not the inverse (C32_section_refuted); it is exactly for multiples of the identity. When a section exists and its orientation are proved correct."
  },
  {
   "property": "C33",
   "status": "proved",
   "theorems": [
    "C33_positive",
    "C33_value"
   ],
   "note": "positive() is exact and operator() evaluates, for every ExactReal."
  },
  {
   "property": "C34",
   "status": "proved",
   "theorems": [
    "C34_refine",
    "C34_all",
    "C34_search",
    "C34_bound",
    "C34_lower_bound",
    "C34_sector_at",
    "C34_source",
    "C34_sector",
    "C34_between"
   ],
   "note": "Restrictions are intersections of sets of connections, each once, so they commute; for surfaces all of whose edges are nonzero, and inner vertices for the sector between two connections."
  },
  {
   "property": "C35",
   "status": "proved",
   "theorems": [
    "C35_deferred_moves",
    "C35_chain_refuted"
   ],
   "note": "The vector of the chain is the same; the chain itself can be another one (C35_chain_refuted)."
  },
  {
   "property": "C36",
   "status": "proved",
   "theorems": [
    "C36_pruning"
   ],
   "note": "The test of an edge is exact, and what is behind an edge outside of the radius is outside of the radius."
  },
  {
   "property": "C37",
   "status": "proved",
   "theorems": [
    "C37_bounded",
    "C37_unbounded"
   ],
   "note": "For surfaces all of whose edges are nonzero and whatever function sorts. Connections are compared by source, target and vector. Without a bound the statement is on every finite number of connections."
  },
  {
   "property": "C38",
   "status": "partial",
   "theorems": [
    "C38_equality",
    "C38_reverse",
    "C38_closed",
    "C38_iterator",
    "C38_loop",
    "C38_splice",
    "C38_append_itself_refuted",
    "C38_area",
    "C38_area_open"
   ],
   "note": "Proved, except that p += p reads through invalidated iterators (C38_append_itself_refuted). tighten and simple are not modelled."
  },
  {
   "property": "C39",
   "status": "proved",
   "theorems": [
    "C39_equal",
    "C39_representative"
   ],
   "note": "For every history of joins and queries (which compress paths)."
  },
  {
   "property": "C40",
   "status": "proved",
   "theorems": [
    "C40_minimum",
    "C40_isomorphic",
    "C40_boundary_refuted",
    "C40_relabel",
    "C40_representative"
   ],
   "note": "For closed connected surfaces, as stated. Beyond the statement, C40_boundary_refuted: for a surface with boundary the walkers dereference an end iterator."
  },
  {
   "property": "C41",
   "status": "proved",
   "theorems": [
    "C41_orthonormal",
    "C41_orthogonal",
    "C41_orthogonal_refuted",
    "C41_invariant",
    "C41_walkers"
   ],
   "note": "Both matrices have the stated images for every pair of independent half edges, the determinant for SL is 1 or -1 with the sign of the orientation, normalization does not depend on a deformation within the group, and the walkers that compare surfaces use matrices of the right orientation. Beyond the property: that the normalization for SL is found whenever it exists over the ring is refuted (C41_orthogonal_refuted). Custom normalization functions are not modelled."
  },
  {
   "property": "C42",
   "status": "partial",
   "theorems": [
    "C42_equivalence",
    "C42_negative",
    "C42_half_edge",
    "C42_chains",
    "C42_hash_refuted"
   ],
   "note": "Equality is an equivalence and negation is an involution compatible with it; equal saddle connections with different chains have different hashes (C42_hash_refuted)."
  },
  {
   "property": "C43",
   "status": "partial",
   "theorems": [
    "C43_half_edge",
    "C43_edge",
    "C43_bound",
    "C43_permutation",
    "C43_vector",
    "C43_vertex",
    "C43_archive",
    "C43_boundary_refuted",
    "C43_flat_boundary_refuted",
    "C43_flip_refuted"
   ],
   "note": "Proved for archives with names: half edges, edges, bounds, permutations, vectors, vertices, and every sequence of triangulations, surfaces, chains, saddle connections and verticals that share closed surfaces (C43_archive). A boundary is lost (C43_boundary_refuted, C43_flat_boundary_refuted), and a triangulation that is flipped while the archive is written is loaded as it was before (C43_flip_refuted)."
  },
  {
   "property": "C44",
   "status": "partial",
   "theorems": [
    "C44_swap",
    "C44_half_edge",
    "C44_half_edge_map",
    "C44_half_edge_map_refuted",
    "C44_edge_map",
    "C44_odd_half_edge_map",
    "C44_edge_set",
    "C44_make_last",
    "C44_erase"
   ],
   "note": "Proved for all attached types, except that a HalfEdgeMap does not follow the swap of a half edge with its own negative (C44_half_edge_map_refuted); collapse() never asks for such a swap. Attached deformations, saddle connections and the connections between Tracked objects and triangulations are not modelled."
  },
  {
   "property": "C45",
   "status": "proved",
   "theorems": [
    "C45_queries",
    "C45_constructor",
    "C45_flip"
   ],
   "note": "For surfaces that are not collapsed and histories of the queries in Vertical.v and flips; the vertical and its surface are one state. The unused length cache is left out."
  },
  {
   "property": "C46",
   "status": "partial",
   "theorems": [
    "C46_classify",
    "C46_boundary",
    "C46_components_partial",
    "C46_components",
    "C46_components_refuted"
   ],
   "note": "classifyFace() is proved in full. components() is a partition when no half edge is vertical (C46_components); in general some vertical half edges are also reported as components of their own (C46_components_partial), so that it is not a partition (C46_components_refuted)."
  },
  {
   "property": "C47",
   "status": "partial",
   "theorems": [
    "C47_has_cylinder",
    "C47_completely_periodic",
    "C47_completely_periodic_refuted",
    "C47_parabolic",
    "C47_parabolic_refuted"
   ],
   "note": "completelyPeriodic() answers true when the answer for a component is not known (C47_completely_periodic_refuted) and parabolic() answers false then (C47_parabolic_refuted); otherwise as stated. The components are given by their answers, the decomposition into coefficients of intervalxt is a parameter with the contract that it is linear and faithful over the rationals."
  },
  {
   "property": "C48",
   "status": "partial",
   "theorems": [
    "C48_rejected",
    "C48_unit",
    "C48_points",
    "C48_paths",
    "C48_associative",
    "C48_section",
    "C48_trivial_refuted",
    "C48_points_refuted",
    "C48_associative_refuted",
    "C48_paths_refuted",
    "C48_section_refuted"
   ],
   "note": "Proved: exactly the deformations that fit can be composed; products act like the composition on points when no factor with flips is reported as trivial, and on paths without flips; associativity without flips; sections undo on points when orientation is preserved or there are no flips. Refuted (_refuted): trivial() is true of a twist made of flips and a linear map, so that products drop it and composition is not associative; paths under products with flips; sections of flips with orientation reversing maps."
  },
  {
   "property": "C49",
   "status": "partial",
   "theorems": [
    "C49_terminates_partial",
    "C49_refuted"
   ],
   "note": "False: the loop over the path comes to an end exactly for straight paths through marked points (C49_terminates_partial, C49_refuted). The image of a single segment is a parameter."
  },
  {
   "property": "C50",
   "status": "partial",
   "theorems": [
    "C50_product_partial",
    "C50_product_refuted",
    "C50_product_overflow",
    "C50_quotient_partial",
    "C50_quotient_refuted",
    "C50_quotient_minimum"
   ],
   "note": "Exact away from the bounds of the machine integers (C50_product_partial, C50_quotient_partial); overflows are not rejected (C50_product_refuted, C50_product_overflow) and quotients by 2^63-1 are wrong (C50_quotient_refuted)."
  },
  {
   "property": "C51",
   "status": "proved",
   "theorems": [
    "C51_constructor",
    "C51_sum",
    "C51_push_pop",
    "C51_compare",
    "C51_forget",
    "C51_subtract",
    "C51_repeated"
   ],
   "note": "The connections that are crossed in subtract are arguments of the model, they are not computed from a flow decomposition."
  },
  {
   "property": "C52",
   "status": "partial",
   "theorems": [
    "C52_relative",
    "C52_order",
    "C52_reversed",
    "C52_refuted"
   ],
   "note": "Correct when the two lines cross the half edge from the same side (C52_order) and reversed when both come from the other side; wrong for lines from different sides (C52_refuted), which SaddleConnection::path() presumably never compares."
  },
  {
   "property": "C53",
   "status": "partial",
   "theorems": [
    "C53_preserving",
    "C53_reversing_edge",
    "C53_reversing_interior",
    "C53_refuted",
    "C53_trivial"
   ],
   "note": "Closed surfaces. Correct for matrices that preserve the orientation, and on edges and vertices for those that reverse it; points inside faces are always mapped to the wrong face by matrices that reverse the orientation (C53_reversing_interior, C53_refuted)."
  },
  {
   "property": "C54",
   "status": "partial",
   "theorems": [
    "C54_root",
    "C54_root_terminates",
    "C54_root_first",
    "C54_less_partial",
    "C54_less_linear",
    "C54_less_terminates",
    "C54_root_refuted",
    "C54_less_refuted"
   ],
   "note": "root() always returns some root in [0, 1], terminates, and is the smallest root at high precision; at 64 bits it can return exactly 1 though there is a smaller root (C54_root_refuted). operator< is correct for linear polynomials and terminates; for polynomials with a single root in [0, 1] it is correct unless they have another root in common (C54_less_partial, C54_less_refuted)."
  },
  {
   "property": "C55",
   "status": "proved",
   "theorems": [
    "C55_defined",
    "C55_turn",
    "C55_vertices",
    "C55_angle",
    "C55_ccw"
   ],
   "note": "For inner vertices, whatever their total angle."
  },
  {
   "property": "C56",
   "status": "proved",
   "theorems": [
    "C56_sectors",
    "C56_all",
    "C56_both_directions",
    "C56_boundary_refuted"
   ],
   "note": "For surfaces with boundary, boundary edges are only reported in one direction (C56_boundary_refuted)."
  },
  {
   "property": "C57",
   "status": "partial",
   "theorems": [
    "C57_order_refuted"
   ],
   "note": "False: a connection is reported before the connections that are clockwise from it in the same sector (C57_order_refuted)."
  },
  {
   "property": "C58",
   "status": "proved",
   "theorems": [
    "C58_shortest",
    "C58_shortest_along"
   ],
   "note": "For nonempty surfaces."
  },
  {
   "property": "C59",
   "status": "proved",
   "theorems": [
    "C59_vertex",
    "C59_insert",
    "C59_kept"
   ],
   "note": "For closed surfaces and points in normal form. The flips of insertAt are bounded by fuel in the model; insert does not flip, so any positive fuel will do."
  },
  {
   "property": "C60",
   "status": "proved",
   "theorems": [
    "C60_insert_at",
    "C60_rejected",
    "C60_kept"
   ],
   "note": "For closed surfaces, about calls that return; termination of the flips is not proved."
  },
  {
   "property": "C61",
   "status": "partial",
   "theorems": [
    "C61_path",
    "C61_section",
    "C61_half_edge",
    "C61_history",
    "C61_refuted"
   ],
   "note": "Proved for flips, sections of flips and sequences of flips. Refuted (C61_refuted): the chain of the image is over the surface before the flip, so that a linear map applied afterwards gives the wrong vector."
  },
  {
   "property": "C62",
   "status": "proved",
   "theorems": [
    "C62_linear",
    "C62_relabel",
    "C62_half_edge",
    "C62_product"
   ],
   "note": "For surfaces without boundary."
  },
  {
   "property": "C63",
   "status": "proved",
   "theorems": [
    "C63_linear",
    "C63_combinatorial"
   ],
   "note": "For combinatorial, unlabeled, area preserving and linear equivalences of closed connected surfaces, oriented or not."
  },
  {
   "property": "C64",
   "status": "proved",
   "theorems": [
    "C64_isomorphic",
    "C64_total",
    "C64_named",
    "C64_representative",
    "C64_canonical"
   ],
   "note": "Isomorphic surfaces over rings that lack quotients may lead to an exception, as the statement says."
  },
  {
   "property": "C65",
   "status": "proved",
   "theorems": [
    "C65_isomorphisms"
   ],
   "note": ""
  },
  {
   "property": "C66",
   "status": "proved",
   "theorems": [
    "C66_cells",
    "C66_cells_result",
    "C66_default",
    "C66_faces",
    "C66_result",
    "C66_boundary",
    "C66_disconnected_refuted"
   ],
   "note": "Beyond the statement, C66_disconnected_refuted: of a surface with several components only one is compared."
  },
  {
   "property": "C67",
   "status": "proved",
   "theorems": [
    "C67_constructor",
    "C67_contours",
    "C67_first_return",
    "C67_lengths",
    "C67_forget"
   ],
   "note": "The constructor of the library intervalxt that is called with the two contours is not modelled."
  },
  {
   "property": "C68",
   "status": "proved",
   "theorems": [
    "C68_unique",
    "C68_terminates",
    "C68_all",
    "C68_forever_refuted"
   ],
   "note": "C68_unique and C68_all are about the result when the function returns. C68_terminates says exactly when it returns with a result for which the interval exchange transformation can be constructed. C68_forever_refuted shows that without the condition on lines the loops do not end, for the square torus and a direction parallel to an edge; this is outside the statement. The surfaces are FlatTriangulation, not FlatTriangulationCollapsed for which vertical edges are collapsed first."
  },
  {
   "property": "C69",
   "status": "partial",
   "theorems": [
    "C69_vertex",
    "C69_blocked",
    "C69_singular",
    "C69_total",
    "C69_terminates",
    "C69_unique",
    "C69_inside",
    "C69_along_edge",
    "C69_over_singularity_refuted",
    "C69_zero",
    "C69_zero_refuted",
    "C69_stays"
   ],
   "note": "Proved for vertices and nonzero vectors (C69_vertex, C69_blocked, C69_singular, C69_total, C69_terminates), for points that are not vertices only when they stay in their face (C69_inside). In the specification, a segment along an edge passes vertices on their right side, as the library does; C69_over_singularity_refuted shows that vertices of other angles on an edge are not rejected. C69_zero_refuted: the zero vector is in no sector, so that the loop around the vertex does not end."
  },
  {
   "property": "C70",
   "status": "partial",
   "theorems": [
    "C70_shift",
    "C70_parallel",
    "C70_simple",
    "C70_area",
    "C70_angles",
    "C70_rejected",
    "C70_integers_refuted"
   ],
   "note": "C70_shift and C70_parallel say that whatever is returned is the end of a deformation and that there is no error; they do not say that the recursion ends. C70_shift assumes that roots are found and compared correctly for the polynomials that occur, which C54 shows not to be the case for all quadratic polynomials; C70_parallel needs no such assumption. C70_integers_refuted: for coordinates in long long or mpz_class the partial shifts are rounded and a valid shift is rejected with an exception. Shifts that collapse an edge at time 1 are excluded by the hypothesis no_collision."
  },
  {
   "property": "C71",
   "status": "partial",
   "theorems": [
    "C71_collapse",
    "C71_vertices",
    "C71_collapsible",
    "C71_rejected",
    "C71_shift",
    "C71_along",
    "C71_flips",
    "C71_angles"
   ],
   "note": "C71_shift, C71_along and C71_flips say what is returned and that there is no error; they do not say that the search for flips ends. Shifts that collapse several edges are not covered. The hypothesis that the collapsing half edge is the positive one of its edge loses nothing: a half edge shrinks to a point exactly when its opposite does."
  },
  {
   "property": "C72",
   "status": "partial",
   "theorems": [
    "C72_choice",
    "C72_step",
    "C72_eliminate",
    "C72_single",
    "C72_complete",
    "C72_unchanged",
    "C72_levels",
    "C72_error_refuted",
    "C72_degree_refuted"
   ],
   "note": "C72_choice, C72_step, C72_eliminate, C72_single, C72_complete, C72_unchanged and C72_levels say what is returned, and that the only error is the one for surfaces in which all edges end at the marked point; C72_error_refuted is such a surface. C72_degree_refuted: a marked point with a shorter edge is preferred over a point of smaller degree. Not proved: that the search for flips within one shift ends. The mapping of saddle connections is not modelled."
  },
  {
   "property": "C73",
   "status": "proved",
   "theorems": [
    "C73_unique",
    "C73_source",
    "C73_identity"
   ],
   "note": "Proved for the transfer of a direction given corresponding saddle connections at its vertex; that the search of these finds corresponding ones is not modelled."
  },
  {
   "property": "C74",
   "status": "partial",
   "theorems": [
    "C74_in_sector",
    "C74_found",
    "C74_in_plane",
    "C74_clockwise_partial",
    "C74_chain",
    "C74_chain_plane",
    "C74_vector_refuted"
   ],
   "note": "C74_in_sector, C74_found, C74_in_plane and C74_chain are complete. C74_vector_refuted: instead of throwing, shorter and even longer saddle connections in the same direction are returned. C74_clockwise_partial needs the hypothesis of C25 since walking clockwise to a direction in the initial sector does not walk around the vertex."
  },
  {
   "property": "C75",
   "status": "proved",
   "theorems": [
    "C75_straight",
    "C75_segment"
   ],
   "note": "Proved for the image of a straight path given corresponding saddle connections at its ends; that the search of these finds corresponding ones is not modelled."
  },
  {
   "property": "C76",
   "status": "proved",
   "theorems": [
    "C76_path",
    "C76_order",
    "C76_unique"
   ],
   "note": "For surfaces without boundary and values that are saddle connections of the surface; other values that can be constructed from chains are not covered."
  },
  {
   "property": "C77",
   "status": "proved",
   "theorems": [
    "C77_faces",
    "C77_vertices",
    "C77_closed"
   ],
   "note": "Lists with a repeated half edge only fail assertions in the code and are not covered."
  },
  {
   "property": "C78",
   "status": "partial",
   "theorems": [
    "C78_sample",
    "C78_reached",
    "C78_half_edges_refuted",
    "C78_bound",
    "C78_empty_refuted"
   ],
   "note": "Proved for whole sectors and all random choices, including that each call ends. Refuted: half edges of the triangulation are never returned since the iterator is incremented once before the loop; without sectors the constructor reads sectors[0]. Sectors that are restricted by vectors and the weighing of random choices are not covered."
  },
  {
   "property": "C79",
   "status": "partial",
   "theorems": [
    "C79_image",
    "C79_vector",
    "C79_linear",
    "C79_connected",
    "C79_trivial",
    "C79_trivial_refuted"
   ],
   "note": "The images of paths are proved for all surfaces, paths, and images of half edges. Refuted: when trivial() is true, a path need not be mapped to itself, since saddle connections that are not half edges are replaced by half edges. How operator+ finds the images of the half edges is not modelled."
  },
  {
   "property": "C80",
   "status": "partial",
   "theorems": [
    "C80_in_sector",
    "C80_plane",
    "C80_vertical",
    "C80_counterclockwise",
    "C80_ends_refuted"
   ],
   "note": "Proved for all surfaces and directions: the exception, the saddle connection that is found, and that the search does not end when there is none. Refuted: that the function always returns or throws."
  },
  {
   "property": "C81",
   "status": "proved",
   "theorems": [
    "C81_sector",
    "C81_plane",
    "C81_in_half_plane"
   ],
   "note": "For all surfaces, at vertices that are not on the boundary."
  }
 ]
}