{
 "claims": [
  {
   "property": "C01",
   "status": "proved",
   "theorems": [
    "c01_and_is_shared_planes",
    "c01_and_comm",
    "c01_and_assoc",
    "c01_and_idem",
    "c01_and_largest_subsumed"
   ],
   "note": "all dimensions and masks"
  },
  {
   "property": "C02",
   "status": "proved",
   "theorems": [
    "c02_partial_ordering",
    "c02_subsumes",
    "c02_strict_subsumes",
    "c02_mask_is_plane_set"
   ],
   "note": "all dimensions and masks"
  },
  {
   "property": "C03",
   "status": "partial",
   "theorems": [
    "c03_difference_partial",
    "c03_union_is_intersection_partial",
    "c03_union_refuted"
   ],
   "note": "REFUTED as documented: operator| computes the intersection (c03_union_refuted); the difference half and the exact behaviour of operator| are proved"
  },
  {
   "property": "C04",
   "status": "proved",
   "theorems": [
    "c04_possible_cells"
   ],
   "note": "exact set, no duplicates, 2^count"
  },
  {
   "property": "C05",
   "status": "proved",
   "theorems": [
    "c05_vertex_incidence"
   ],
   "note": "exact arithmetic"
  },
  {
   "property": "C06",
   "status": "proved",
   "theorems": [
    "c06_element_incidence",
    "c06_face_incidence",
    "c06_generator_agrees",
    "c06_generator_is_intersection",
    "c06_common_cell_needed",
    "c06_generator_loops"
   ],
   "note": "mask/min-coordinate computation = set of closed cells containing all vertices; equal to the generator's intersection; the common-cell hypothesis shown necessary"
  },
  {
   "property": "C07",
   "status": "proved",
   "theorems": [
    "c07_from_vertex",
    "c07_repair",
    "c07_repair_fixpoint",
    "c07_floor"
   ],
   "note": "exact arithmetic (rounding not modelled)"
  },
  {
   "property": "C08",
   "status": "proved",
   "theorems": [
    "c08_irreflexive",
    "c08_transitive",
    "c08_total_up_to_eq",
    "c08_eq_is_same_point"
   ],
   "note": "strict total order; equivalence = same point for normalised vertices"
  },
  {
   "property": "C09",
   "status": "proved",
   "theorems": [
    "c09_add",
    "c09_sub",
    "c09_scale",
    "c09_lerp",
    "c09_lerp_keeps_shared_plane"
   ],
   "note": "exact arithmetic"
  },
  {
   "property": "C10",
   "status": "proved",
   "theorems": [
    "c10_thresholding",
    "c10_normalised",
    "c10_idempotent"
   ],
   "note": "for thresholds in [0,1/2], exact arithmetic"
  },
  {
   "property": "C11",
   "status": "partial",
   "theorems": [
    "c11_approx_partial",
    "c11_approx_sound_partial",
    "c11_approx_refuted"
   ],
   "note": "REFUTED as stated: approx never holds across an integer plane (c11_approx_refuted); exact characterisation and soundness proved"
  },
  {
   "property": "C12",
   "status": "proved",
   "theorems": [
    "c12_upgrade_then_downgrade",
    "c12_downgrade_then_upgrade",
    "c12_vertex_up_down",
    "c12_vertex_down_up",
    "c12_index_up_down"
   ],
   "note": "vectors, vertices and grid indices; exact arithmetic"
  },
  {
   "property": "C13",
   "status": "partial",
   "theorems": [
    "c13_transitivity_refuted",
    "c13_strict_partial",
    "c13_same_edge_partial",
    "c13_same_edge_weak_order_partial",
    "c13_crossing_kinds"
   ],
   "note": "REFUTED as stated: c13_transitivity_refuted gives three intersections on which operator< is not transitive. Proved instead: irreflexive and asymmetric everywhere; a strict weak order (the parameter order) among intersections of one parent edge."
  },
  {
   "property": "C14",
   "status": "proved",
   "theorems": [
    "c14_crossing_indices",
    "c14_vertex_count",
    "c14_lookup",
    "c14_unfused",
    "c14_exact_flags_needed"
   ],
   "note": "fusing branch of compute_crossings; requires exact clamped flags (necessity shown by c14_exact_flags_needed)"
  },
  {
   "property": "C15",
   "status": "proved",
   "theorems": [
    "c15_grid_edge_ends",
    "c15_grid_edge_chain",
    "c15_grid_edge_complete",
    "c15_edge_coord",
    "c15_edge_coord_none"
   ],
   "note": "per grid edge, over all crossing lists; the parallel loop over edges is modelled as independent per-edge computations"
  },
  {
   "property": "C16",
   "status": "partial",
   "theorems": [
    "c16_smallest_edge",
    "c16_rotation_invariant",
    "c16_key_shares_edge",
    "c16_reverse_is_swapped_partial",
    "c16_reverse_key_refuted"
   ],
   "note": "forward key proved; the reverse-key half is REFUTED: for every simple loop the reverse variant differs from the key used at lookup (c16_reverse_key_refuted)"
  },
  {
   "property": "C17",
   "status": "proved",
   "theorems": [
    "c17_successor_is_a_permutation"
   ],
   "note": "for every neighbour order that is a permutation; AngleSort shows the code's order is one for std::sort"
  },
  {
   "property": "C18",
   "status": "proved",
   "theorems": [
    "c18_face_ids",
    "c18_faces_are_the_loops"
   ],
   "note": "bake without hole merging (nonsimple_faces=false), simple edge sets; all disjoint-set link choices"
  },
  {
   "property": "C19",
   "status": "partial",
   "theorems": [
    "c19_loop_removal_refuted",
    "c19_wrong_side_refuted",
    "c19_loop_removal_partial",
    "c19_edge_removal_partial"
   ],
   "note": "REFUTED for set_edges_for_removal (uses loop positions instead of vertex ids): c19_loop_removal_refuted, c19_wrong_side_refuted; exact behaviour proved; set_edge_for_removal proved correct"
  },
  {
   "property": "C20",
   "status": "proved",
   "theorems": [
    "c20_every_side_in_one_cell",
    "c20_unfolded_face_separates_two_cells"
   ],
   "note": "all face families with non-negative ids, any loops, any cyclic order, any union-find linking"
  },
  {
   "property": "C21",
   "status": "proved",
   "theorems": [
    "c21_same_cell_iff_dihedrally_connected",
    "c21_plain_faces_keep_their_edges",
    "c21_closed_surface_cells",
    "c21_connected_closed_surface_two_cells"
   ],
   "note": "general dihedral connectivity, plus closed-surface corollaries; the cyclic order around an edge (external mtao library, floating point) is a parameter"
  },
  {
   "property": "C22",
   "status": "proved",
   "theorems": [
    "c22_remove_from_faces",
    "c22_remove_from_vertices",
    "c22_remove_boundary_cells",
    "c22_remove_grid_boundary_cells",
    "c22_remove_by_volume"
   ],
   "note": "each removal is the exact filter; a cell with no faces would satisfy every 'all faces' predicate vacuously"
  },
  {
   "property": "C23",
   "status": "proved",
   "theorems": [
    "c23_same_root_iff_connected"
   ],
   "note": "all operation sequences and all link choices of the (external) union-find"
  },
  {
   "property": "C24",
   "status": "partial",
   "theorems": [
    "c24_cells_tile_the_inactive_region_partial",
    "c24_coarsest_cells",
    "c24_level_zero",
    "c24_refuted_non_cubic",
    "c24_refuted_nothing_active",
    "c24_any_shape",
    "c24_first_side_free",
    "c24_lost_cell_refuted"
   ],
   "note": "REFUTED as stated: the factory pads to a power-of-two cube, so on a 2x4x4 grid a cell lies outside, with nothing active and no level limit no cell is made, and on 3x3x3 an inactive grid cell is lost because a padding cell has the same row-major index (c24_lost_cell_refuted). Proved for every mask and level on 2^k cubes (k>=1) when the level limit is below k or something is active, plus maximality of coarsening and the level-0 case for every grid shape; on every shape the cells are disjoint aligned inactive cubes in the padded cube (c24_any_shape), and nothing is lost whenever sides 1 and 2 are the full power of two (c24_first_side_free)."
  },
  {
   "property": "C25",
   "status": "proved",
   "theorems": [
    "c25_ownership_grid",
    "c25_overlap_lowest_id_wins"
   ],
   "note": "Ownership grid for all well-formed disjoint families; overlapping cells: lowest id wins."
  },
  {
   "property": "C26",
   "status": "proved",
   "theorems": [
    "c26_one_face_per_meeting_pair",
    "c26_face_geometry"
   ],
   "note": "One face per meeting pair and axis, none else; face square is exactly the contact region (dyadic cells)."
  },
  {
   "property": "C27",
   "status": "proved",
   "theorems": [
    "c27_projection_entries",
    "c27_projection_averages"
   ],
   "note": "Exact entries, one per unit cell, w^3 of them, sum 1."
  },
  {
   "property": "C28",
   "status": "partial",
   "theorems": [
    "c28_cell_round_trip",
    "c28_square_face_exact_result",
    "c28_square_face_round_trip_iff_partial",
    "c28_refuted"
   ],
   "note": "REFUTED for Square and Face (from_proto exchanges axis and width; exact result and iff proved); Cell proved."
  },
  {
   "property": "C29",
   "status": "proved",
   "theorems": [
    "c29_closed_outward_surface"
   ],
   "note": "All corners and widths > 0."
  },
  {
   "property": "C30",
   "status": "partial",
   "theorems": [
    "c30_refuted",
    "c30_entry_zero_partial"
   ],
   "note": "REFUTED: only entry 0 is written; the value of entry 0 is proved."
  },
  {
   "property": "C31",
   "status": "proved",
   "theorems": [
    "c31_vertex",
    "c31_cell",
    "c31_face"
   ],
   "note": "every order in which protobuf may iterate the entries map; in-memory messages (the wire format is protobuf's)"
  },
  {
   "property": "C32",
   "status": "proved",
   "theorems": [
    "c32_round_trip",
    "c32_lost_on_load"
   ],
   "note": "for all well-formed meshes and all map iteration orders; c32_lost_on_load states what is not saved (cut edges, active mask, extra triangulation vertices)"
  },
  {
   "property": "C33",
   "status": "proved",
   "theorems": [
    "c33_index_bijection"
   ],
   "note": "index and coordinate maps of the exterior grid are mutually inverse"
  },
  {
   "property": "C34",
   "status": "partial",
   "theorems": [
    "c34_facets_exact",
    "c34_facets_partial",
    "c34_refuted_single_layer"
   ],
   "note": "REFUTED for axes of a single layer: make_facets skips the high-side facets there (s[i] < 1). The exact facet list is proved for every shape and mask, and the full property for shapes with at least two layers."
  },
  {
   "property": "C35",
   "status": "partial",
   "theorems": [
    "c35_grid_boundary_faces_partial",
    "c35_refuted_throws",
    "c35_refuted_on_exterior_grids"
   ],
   "note": "REFUTED: boundary_facets()/interior_facets() iterate the pair itself and throw std::out_of_range; the operator-level query grid_boundary_faces is proved exact."
  },
  {
   "property": "C36",
   "status": "proved",
   "theorems": [
    "c36_incidence",
    "c36_row_sums",
    "c36_exterior_rows_sum_to_zero"
   ],
   "note": "entries, uniqueness and row sums of the exterior boundary operator"
  },
  {
   "property": "C37",
   "status": "partial",
   "theorems": [
    "c37_face_numbering",
    "c37_plain",
    "c37_dirichlet_square_partial",
    "c37_dirichlet_refuted",
    "c37_dirichlet_interior_refuted",
    "c37_in_range"
   ],
   "note": "REFUTED for ni != nj: the last Dirichlet test compares j with ni-1 (c37_dirichlet_refuted, c37_dirichlet_interior_refuted). Proved: without the flag for every grid; with the flag on square grids; numbering and ranges."
  },
  {
   "property": "C38",
   "status": "proved",
   "theorems": [
    "c38_point_location",
    "c38_codes"
   ],
   "note": "Containment of a point in a polygon is by the winding number, a parameter of the model."
  },
  {
   "property": "C39",
   "status": "partial",
   "theorems": [
    "c39_point_location_partial",
    "c39_refuted"
   ],
   "note": "REFUTED as stated: -2 only beyond n+1 instead of n; exact behaviour proved for all points."
  },
  {
   "property": "C40",
   "status": "partial",
   "theorems": [
    "c40_labelled",
    "c40_same_region",
    "c40_exterior",
    "c40_contiguous",
    "c40_zero",
    "c40_no_outside",
    "c40_outside_zero_refuted"
   ],
   "note": "Same label iff linked by a chain of cells touching through faces that are not input-mesh faces; labels in order of first appearance with 0 reserved for the component of the first cell having the leftmost grid face; exterior cells take the label of their component. REFUTED: \"the outside is always region 0\" (c40_outside_zero_refuted): the leftmost face may be an input-mesh face used first by an inner cell."
  },
  {
   "property": "C41",
   "status": "proved",
   "theorems": [
    "c41_defined",
    "c41_glue",
    "c41_sum_zero",
    "c41_flip",
    "c41_translate",
    "c41_linear",
    "c41_planar_loop",
    "c41_box",
    "c41_tetrahedron"
   ],
   "note": "For CutCell::volume over CutFace<3>::brep_volume without a cached triangulation (exact arithmetic): gluing, sum zero, sign flip, translation of closed cells, linear maps, planar loop rotation/reversal, box and tetrahedron values, and when it is defined."
  },
  {
   "property": "C42",
   "status": "proved",
   "theorems": [
    "c42_orientation",
    "c42_affine",
    "c42_convex",
    "c42_box"
   ],
   "note": "The centroid reported for a cut cell (brep_centroid + moment) does not depend on orientations, commutes with affine maps and stays in the convex hull; c42_not_mass_centre records that it is not the centre of mass."
  },
  {
   "property": "C43",
   "status": "partial",
   "theorems": [
    "c43_grid_rows",
    "c43_affine",
    "c43_bounds",
    "c43_nonnegative",
    "c43_range_partial",
    "c43_range_refuted"
   ],
   "note": "Partition of unity, nonnegativity, affine reproduction and bounds proved; REFUTED: entries are not always inside the matrix (c43_range_refuted: a cut vertex on the last plane of axis 0 writes a zero entry past the last column); in range when all cell corners exist (c43_range_partial)."
  },
  {
   "property": "C44",
   "status": "proved",
   "theorems": [
    "c44_weights",
    "c44_subdivision"
   ],
   "note": ""
  },
  {
   "property": "C45",
   "status": "proved",
   "theorems": [
    "c45_hodge_reciprocal",
    "c45_top_reciprocal"
   ],
   "note": "Elementwise formulas shared by volume2.cpp and volume3.cpp; exact rationals, so finiteness is the absence of a zero denominator."
  },
  {
   "property": "C46",
   "status": "partial",
   "theorems": [
    "c46_fresh_partial",
    "c46_bake_idempotent",
    "c46_update_mesh",
    "c46_topology_refuted",
    "c46_threshold_refuted",
    "c46_grid_refuted",
    "c46_imgui_refuted",
    "c46_unbaked_refuted",
    "c46_imgui_mesh_refuted",
    "c46_imgui_mesh_when",
    "c46_imgui_twice"
   ],
   "note": "Proved for all histories (and any bake function) in which grid updates are followed by vertex updates, update_topology is accompanied by a dirtying call, the vertex count is fixed and the default threshold is used. REFUTED without them: update_topology does not mark the constructor dirty (stale mesh), update_grid keeps the vertices of the old grid (also through the Imgui wrapper), the constructor threshold is ignored. The GUI wrapper update_mesh_and_bbox bakes vertices converted with the old grid for every input (c46_imgui_mesh_refuted, exact condition in c46_imgui_mesh_when); calling it twice is enough (c46_imgui_twice)."
  },
  {
   "property": "C47",
   "status": "partial",
   "theorems": [
    "c47_read_back_partial",
    "c47_closed_round_trip",
    "c47_open_curve_refuted",
    "c47_more_edges_refuted"
   ],
   "note": "Exact result of reading back a written curve for every curve and number format; round trip proved when #edges = #vertices. REFUTED otherwise: the missing break makes vertex rows leave spurious edges and the edge matrix has one column per vertex (open curves never round trip; more edges than vertices write out of bounds). Number printing/parsing is a parameter (iostreams keep 6 digits)."
  },
  {
   "property": "C48",
   "status": "proved",
   "theorems": [
    "c48_vertices",
    "c48_faces",
    "c48_scale_one",
    "c48_colors",
    "c48_centers"
   ],
   "note": "Vertices, faces and colours of the exploded mesh for every list of cell meshes, region selection and scale; per-cell meshes, regions and centres are inputs (get_mesh, compactify, region_centroids are not modelled)."
  },
  {
   "property": "C49",
   "status": "proved",
   "theorems": [
    "c49_mask",
    "c49_edges",
    "c49_schedule_independent"
   ],
   "note": "mask, stored grid edges and independence of the schedule; vector<bool> data races are outside the model"
  },
  {
   "property": "C50",
   "status": "proved",
   "theorems": [
    "c50_face",
    "c50_interior",
    "c50_sign",
    "c50_sign_unused",
    "c50_edge",
    "c50_edge_sign"
   ],
   "note": "3D classification and sign, 2D classification and sign"
  },
  {
   "property": "C51",
   "status": "partial",
   "theorems": [
    "c51_grid_boundary_faces",
    "c51_adaptive_boundary",
    "c51_mesh_face_mask",
    "c51_mask_first_plane_partial",
    "c51_last_plane_refuted"
   ],
   "note": "grid_boundary_faces is exact and, for exterior faces, equivalent to having no cell on one side. REFUTED for grid_boundary_mask: it compares the plane with vertex_shape()[axis] instead of vertex_shape()[axis]-1, so cut faces on the last plane are never masked (c51_last_plane_refuted); the first plane and the exterior part are right (c51_mask_first_plane_partial)."
  },
  {
   "property": "C52",
   "status": "proved",
   "theorems": [
    "c52_comparator_is_angle_order",
    "c52_strict_weak_order",
    "c52_zero_vector_breaks_order",
    "c52_next_is_clockwise_neighbour"
   ],
   "note": "exact arithmetic; zero differences shown to break the order"
  },
  {
   "property": "C53",
   "status": "partial",
   "theorems": [
    "c53_kept_loops_use_input_edges_refuted",
    "c53_plain_loops_unchanged_partial",
    "c53_loop",
    "c53_faces"
   ],
   "note": "REFUTED in general (c53_kept_loops_use_input_edges_refuted: a spur of one face cuts another face's loop and vertex 0 is inserted). Proved: for every family whose spurs are not edges of other faces' loops the kept loops run over exactly the edges outside the spurs (c53_faces; per loop c53_loop, with any set of edges set aside earlier), and plain faces are kept unchanged (c53_plain_loops_unchanged_partial)."
  },
  {
   "property": "C54",
   "status": "partial",
   "theorems": [
    "c54_isotropic_face_area_partial",
    "c54_exact_face_area",
    "c54_refuted"
   ],
   "note": "REFUTED for anisotropic spacing: dws(i) multiplies dx(i)*dx(i+1); exact value and the isotropic case proved."
  },
  {
   "property": "C55",
   "status": "partial",
   "theorems": [
    "c55_projection_square_partial",
    "c55_refuted"
   ],
   "note": "REFUTED when the lower cell is narrower than the upper; axis and width always right, and the exact displacement of the corner proved for all dyadic families."
  },
  {
   "property": "C56",
   "status": "proved",
   "theorems": [
    "c56_generated_boundary_triplets"
   ],
   "note": "For all families whose ids are corner indices (what the factory produces)."
  },
  {
   "property": "C57",
   "status": "partial",
   "theorems": [
    "c57_refuted_dual_lengths",
    "c57_refuted_wrong_pair",
    "c57_dual_pairs_of_rebuilt_faces_partial",
    "c57_refuted_reloaded_boundary"
   ],
   "note": "REFUTED: generated faces keep pre-renumbering ids, so dual_edge_lengths skips or mispairs faces; reloaded grids have consistent pairs (proved) but then the boundary operator is wrong."
  },
  {
   "property": "C58",
   "status": "partial",
   "theorems": [
    "c58_volumes_add_up",
    "c58_factory_volume_partial",
    "c58_padded_refuted",
    "c58_factory_volume_refuted"
   ],
   "note": "REFUTED for the factory on grids that are not power-of-two cubes: with the other two sides a power of two the volumes are those of the padded cube's cells (c58_padded_refuted), and 2x4x4 and 3x3x3 give too much (c58_factory_volume_refuted). Proved: the sum for every family of cells that tiles the inactive region, so for the factory on power-of-two cubes (under C24's conditions)."
  },
  {
   "property": "C59",
   "status": "proved",
   "theorems": [
    "c59_facet_grid_faces"
   ],
   "note": ""
  },
  {
   "property": "C60",
   "status": "proved",
   "theorems": [
    "c60_face_mask",
    "c60_vertex_layout"
   ],
   "note": ""
  },
  {
   "property": "C61",
   "status": "proved",
   "theorems": [
    "c61_edge_fractions",
    "c61_reads_in_range"
   ],
   "note": "levelset::fraction_inside is an arbitrary function."
  },
  {
   "property": "C62",
   "status": "partial",
   "theorems": [
    "c62_cut_faces",
    "c62_located_partial",
    "c62_refuted",
    "c62_regions"
   ],
   "note": "REFUTED for exterior cells: in_cell ignores the index and is true for every non-cut-face index (c62_refuted). Proved: cut faces exactly, and in_cell(cell_index p) holds."
  },
  {
   "property": "C63",
   "status": "partial",
   "theorems": [
    "c63_exterior_corners",
    "c63_orientation_refuted"
   ],
   "note": "REFUTED orientation: exterior loops are clockwise (c63_orientation_refuted). Corners and closedness proved."
  },
  {
   "property": "C64",
   "status": "proved",
   "theorems": [
    "c64_coefficients",
    "c64_exterior_needed",
    "c64_row_sums",
    "c64_laplacian"
   ],
   "note": "Hypothesis incidence_ok: map keys are cut faces, listed edges exist, no edge twice, and external owners are exterior cells; c64_exterior_needed shows what goes wrong otherwise."
  },
  {
   "property": "C65",
   "status": "partial",
   "theorems": [
    "c65_exterior_lengths_swapped",
    "c65_vectors",
    "c65_exterior_length_refuted",
    "c65_axial_signed",
    "c65_hodge_refuted"
   ],
   "note": "REFUTED: member boundary_facet_volumes returns the dual length, so exterior facets have length and dual length swapped unless dx=dy (c65_exterior_length_refuted, c65_hodge_refuted); axial cut edge lengths are signed (c65_axial_signed)."
  },
  {
   "property": "C66",
   "status": "proved",
   "theorems": [
    "c66_constructors",
    "c66_axis",
    "c66_counts"
   ],
   "note": ""
  },
  {
   "property": "C67",
   "status": "proved",
   "theorems": [
    "c67_clamp_coord",
    "c67_clamp_vertex"
   ],
   "note": ""
  },
  {
   "property": "C68",
   "status": "proved",
   "theorems": [
    "c68_flags"
   ],
   "note": ""
  },
  {
   "property": "C69",
   "status": "proved",
   "theorems": [
    "c69_row_sums",
    "c69_reproduces",
    "c69_edges",
    "c69_faces"
   ],
   "note": ""
  },
  {
   "property": "C70",
   "status": "proved",
   "theorems": [
    "c70_column_sums"
   ],
   "note": "curve_volume is assumed to be the signed polygon area."
  },
  {
   "property": "C71",
   "status": "proved",
   "theorems": [
    "c71_column_sums",
    "c71_rows"
   ],
   "note": ""
  },
  {
   "property": "C72",
   "status": "partial",
   "theorems": [
    "c72_face_fraction",
    "c72_face_column",
    "c72_edge_column",
    "c72_edge_fraction_refuted"
   ],
   "note": "3D proved. 2D REFUTED: edge_grid_volume_matrix divides by dx*dy, so entries are wrong unless the other spacing is 1 (c72_edge_fraction_refuted)."
  },
  {
   "property": "C73",
   "status": "proved",
   "theorems": [
    "c73_coefficients",
    "c73_row_sums",
    "c73_laplacian",
    "c73_two_sided"
   ],
   "note": "All coefficients, index ranges, zero row sums and the Laplacian's kernel/symmetry/positivity, for meshes with the data shape generation produces."
  },
  {
   "property": "C74",
   "status": "proved",
   "theorems": [
    "c74_points",
    "c74_complete",
    "c74_sorted",
    "c74_keeps_planes",
    "c74_exact",
    "c74_no_grid_refuted"
   ],
   "note": "With a grid. Without one (bake() with no argument) the snapping threshold is a whole cell: c74_no_grid_refuted."
  },
  {
   "property": "C75",
   "status": "proved",
   "theorems": [
    "c75_gvertices",
    "c75_no_plane",
    "c75_one_cell"
   ],
   "note": "For every snapping threshold."
  },
  {
   "property": "C76",
   "status": "partial",
   "theorems": [
    "c76_sound",
    "c76_complete",
    "c76_connected",
    "c76_nondegenerate",
    "c76_degenerate_refuted",
    "c76_schedule",
    "c76_order_refuted"
   ],
   "note": "REFUTED in part: an edge without crossings between two vertices with the same index is recorded as a degenerate cut edge (c76_degenerate_refuted), and the order of the recorded edges is schedule dependent (c76_order_refuted). Path, soundness, completeness and schedule independence up to permutation are proved. The serial loop over the edges inside triangles is covered by C114."
  },
  {
   "property": "C77",
   "status": "partial",
   "theorems": [
    "c77_get_coord",
    "c77_from_coord",
    "c77_vertices",
    "c77_own",
    "c77_other_edge_refuted",
    "c77_is_cut_refuted"
   ],
   "note": "REFUTED in part: get_edge_coord of a crossing found on another edge answers with the parameter on that other edge (c77_other_edge_refuted); is_cut() is inverted (c77_is_cut_refuted). The rest is proved."
  },
  {
   "property": "C78",
   "status": "proved",
   "theorems": [
    "c78_loop",
    "c78_steps",
    "c78_boundary_edge"
   ],
   "note": ""
  },
  {
   "property": "C79",
   "status": "proved",
   "theorems": [
    "c79_clamp_valid",
    "c79_clamp_id",
    "c79_boundary",
    "c79_interior"
   ],
   "note": "In exact arithmetic. The position of the representative of a merged group (C81) against the mean of its coordinates is not covered."
  },
  {
   "property": "C80",
   "status": "partial",
   "theorems": [
    "c80_segments",
    "c80_on_plane",
    "c80_one_cell",
    "c80_snapped_refuted"
   ],
   "note": "REFUTED with snapping (c80_snapped_refuted): crossings snapped onto the plane make more than two boundary points, and the segment is dropped. Proved when the edges' crossings stay clear of the snapping distance; on-plane and one-cell parts are proved unconditionally."
  },
  {
   "property": "C81",
   "status": "proved",
   "theorems": [
    "c81_partition",
    "c81_masks",
    "c81_mean"
   ],
   "note": "Which member of a merged group is the representative depends on memory addresses; the theorem is about the groups."
  },
  {
   "property": "C82",
   "status": "partial",
   "theorems": [
    "c82_point_location",
    "c82_unique_cell",
    "c82_cell_kinds",
    "c82_cells_of_grid_cell",
    "c82_outside_refuted"
   ],
   "note": "REFUTED as stated for points outside the grid: -2 is only returned beyond the cells' bounding range (c82_outside_refuted); inside, c82_point_location characterises the result completely."
  },
  {
   "property": "C83",
   "status": "partial",
   "theorems": [
    "c83_vertices",
    "c83_vertex_count",
    "c83_world_position",
    "c83_grid_vertex",
    "c83_local_world",
    "c83_grid_space_partial",
    "c83_grid_space_cut",
    "c83_grid_space_refuted"
   ],
   "note": "REFUTED for grid_space_vertices(): the cut vertices are given in world coordinates (c83_grid_space_refuted); vertices(), vertex(i) and world positions proved."
  },
  {
   "property": "C84",
   "status": "proved",
   "theorems": [
    "c84_regions",
    "c84_regions_defined",
    "c84_sign_regions",
    "c84_face_regions",
    "c84_orig_face_regions"
   ],
   "note": "regions, sign regions, face_regions and orig_face_regions characterised."
  },
  {
   "property": "C85",
   "status": "partial",
   "theorems": [
    "c85_region_centroid_partial",
    "c85_small_region",
    "c85_outer_empty_partial",
    "c85_region_centroid_refuted",
    "c85_all_region_centroids_partial",
    "c85_region_centroids_total"
   ],
   "note": "REFUTED: the code divides by 3 instead of 4, the result is 4/3 of the centre of mass (c85_region_centroid_partial, for all solids glued from tetrahedra), and region 0 uses bb.min() twice (c85_outer_empty_partial)."
  },
  {
   "property": "C86",
   "status": "proved",
   "theorems": [
    "c86_centroid_in_grid_cell",
    "c86_active_cells",
    "c86_active_mask",
    "c86_flat_cell_refuted"
   ],
   "note": "Under the stated hypothesis; c86_flat_cell_refuted shows it is needed: a flat cell on the upper side of its grid cell is attributed to the next one."
  },
  {
   "property": "C87",
   "status": "partial",
   "theorems": [
    "c87_additional_vertices",
    "c87_triangulated",
    "c87_selection",
    "c87_base_and_flap",
    "c87_cell_partial",
    "c87_cell_refuted"
   ],
   "note": "REFUTED for triangulated_cell on faces with own vertices (no index offset, c87_cell_refuted); proved for triangulated_with_additional_vertices and for faces without own vertices."
  },
  {
   "property": "C88",
   "status": "partial",
   "theorems": [
    "c88_get_mesh_partial",
    "c88_get_mesh_unoriented",
    "c88_get_mesh_refuted",
    "c88_centroid_flip",
    "c88_centroid_box",
    "c88_centroid_refuted"
   ],
   "note": "REFUTED: get_mesh ignores the sides' signs (c88_get_mesh_refuted), centroid is not in the convex hull (c88_centroid_refuted; c88_centroid_box gives the exact value for boxes). True: same triangles up to orientation, invariance under turning all sides."
  },
  {
   "property": "C89",
   "status": "proved",
   "theorems": [
    "c89_roundtrip",
    "c89_back",
    "c89_snap",
    "c89_default",
    "c89_update"
   ],
   "note": "Exact round trip, snapping bound, default threshold."
  },
  {
   "property": "C90",
   "status": "partial",
   "theorems": [
    "c90_adjacency",
    "c90_curve",
    "c90_nonmanifold_refuted",
    "c90_orientation_refuted"
   ],
   "note": "Proved for every edge list (c90_adjacency, c90_curve). REFUTED where the property would want more: three edges at a vertex lose one (c90_nonmanifold_refuted), signs do not follow the direction of the edges (c90_orientation_refuted)."
  },
  {
   "property": "C91",
   "status": "partial",
   "theorems": [
    "c91_laplacian",
    "c91_symmetric_psd",
    "c91_closed",
    "c91_divergence_refuted",
    "c91_dual_lengths"
   ],
   "note": "Formula, symmetry, positive semidefiniteness, kernel and dual lengths proved; REFUTED: the divergence is not the one of the oriented curve (c91_divergence_refuted on a closed triangle)."
  },
  {
   "property": "C92",
   "status": "proved",
   "theorems": [
    "c92_nearest",
    "c92_distance",
    "c92_transforms"
   ],
   "note": "For exact arithmetic in any dimension."
  },
  {
   "property": "C93",
   "status": "partial",
   "theorems": [
    "c93_history",
    "c93_update_vertices",
    "c93_rebake",
    "c93_fuse_ignored",
    "c93_add_edge_isect_ignored",
    "c93_pointers_valid",
    "c93_set_vertices_invalidates",
    "c93_bake_appends",
    "c93_double_bake_refuted",
    "c93_set_topology_keeps",
    "c93_slice_stateless"
   ],
   "note": "Proved for all histories, with the computation of a bake left open (any function): c93_history, c93_update_vertices, c93_rebake, c93_slice_stateless. REFUTED: baking again or setting the topology without clear() gives clean results (c93_double_bake_refuted, c93_stale_refuted); set_vertices leaves dangling references (c93_set_vertices_invalidates); fuse and add_edge_isect are ignored."
  },
  {
   "property": "C94",
   "status": "partial",
   "theorems": [
    "c94_transform_plane",
    "c94_transform_iff",
    "c94_transform_refuted",
    "c94_middle_plane",
    "c94_spacing",
    "c94_local",
    "c94_contains_iff",
    "c94_contains_refuted",
    "c94_kept",
    "c94_back",
    "c94_input_restored",
    "c94_extra_refuted"
   ],
   "note": "Grid, kept faces and restored input vertices proved. REFUTED: the plane does not pass through the given origin unless it is fixed by the rotation (c94_transform_refuted; exact condition c94_transform_iff), the grid contains the mesh only under c94_contains_iff (c94_contains_refuted), new vertices would not be transformed back (c94_extra_refuted; c154_cap shows that the call without added vertices never produces any)."
  },
  {
   "property": "C95",
   "status": "proved",
   "theorems": [
    "c95_input",
    "c95_triangles",
    "c95_in_plane"
   ],
   "note": "The Triangle library and the winding number are parameters."
  },
  {
   "property": "C96",
   "status": "proved",
   "theorems": [
    "c96_fan_vertices",
    "c96_fan_boundary",
    "c96_fan_area",
    "c96_fan_volume",
    "c96_solid_angle"
   ],
   "note": "mtao triangle_fan is modelled as (l0, l_i, l_i+1)."
  },
  {
   "property": "C97",
   "status": "partial",
   "theorems": [
    "c97_added",
    "c97_solid_angle",
    "c97_no_add_refuted",
    "c97_face_plane",
    "c97_unit_grid_partial",
    "c97_compact_partial",
    "c97_compact_refuted",
    "c97_world_refuted",
    "c97_cached_plane_refuted"
   ],
   "note": "Proved: the added points come back in the face's plane and the triangles index them (c97_added, c97_solid_angle), triangulate_face puts them in the world plane (c97_face_plane), all right with origin 0 and spacing 1 (c97_unit_grid_partial). REFUTED: compact_triangulated_face uses the wrong vertex table (c97_compact_refuted), triangulate_face converts in-plane world coordinates again (c97_world_refuted), the cached vertices are off the plane (c97_cached_plane_refuted), without permission to add the positions are read from an empty matrix (c97_no_add_refuted)."
  },
  {
   "property": "C98",
   "status": "partial",
   "theorems": [
    "c98_schedule",
    "c98_any_order",
    "c98_cached",
    "c98_idempotent",
    "c98_history_refuted",
    "c98_no_points_partial"
   ],
   "note": "Proved: schedule independence, exact effect on each face, idempotence. REFUTED: independence of earlier calls (c98_history_refuted; true without added points, c98_no_points_partial)."
  },
  {
   "property": "C99",
   "status": "proved",
   "theorems": [
    "c99_boundary_edges",
    "c99_even_degree",
    "c99_adaptive",
    "c99_is_boundary_cell"
   ],
   "note": "the half-edge mesh library is not modelled; the mask, the edge set and the loops are arbitrary"
  },
  {
   "property": "C100",
   "status": "proved",
   "theorems": [
    "c100_vertex_cells",
    "c100_cell_coords",
    "c100_ties"
   ],
   "note": "which half-edges are handed to tie_nonsimple_cells; the tying itself is library code"
  },
  {
   "property": "C101",
   "status": "partial",
   "theorems": [
    "c101_fresh_ids_partial",
    "c101_fresh_ids_refuted",
    "c101_collected"
   ],
   "note": "REFUTED: a slice without cells resets the counter, so later ids clash with input faces and the clashing face is silently dropped (c101_fresh_ids_refuted); proved when every slice has a cell"
  },
  {
   "property": "C102",
   "status": "partial",
   "theorems": [
    "c102_loops",
    "c102_defined_partial",
    "c102_input_faces",
    "c102_duplicate_dropped",
    "c102_negative_ignored_refuted"
   ],
   "note": "REFUTED: input faces facing the negative axis direction never match, so they are duplicated (c102_negative_ignored_refuted); positive direction and the exact set of loops proved"
  },
  {
   "property": "C103",
   "status": "partial",
   "theorems": [
    "c103_faces",
    "c103_axial",
    "c103_bary",
    "c103_cells",
    "c103_folded_refuted",
    "c103_folded_partial"
   ],
   "note": "REFUTED for folded faces, whose ids are not renumbered (c103_folded_refuted); faces, cells, axial faces and barycentric maps proved"
  },
  {
   "property": "C104",
   "status": "partial",
   "theorems": [
    "c104_grid_cell",
    "c104_grid_cell_refuted"
   ],
   "note": "REFUTED: a wrongly numbered folded face leaves the grid cell at (0,0,0) (c104_grid_cell_refuted); exact characterisation of what is stored proved"
  },
  {
   "property": "C105",
   "status": "partial",
   "theorems": [
    "c105_faces",
    "c105_cell",
    "c105_ownership",
    "c105_uncut_refuted"
   ],
   "note": "REFUTED: the uncut part (c105_uncut_refuted): an L-shaped uncut region enclosed by cut cells is kept as a cut face, because only the cell at the lower corner of its bounding box is tested, although the exterior grid covers it too. Proved for all inputs: which loops are kept (c105_faces), that the recorded cell contains the face (c105_cell), and the ownership table (c105_ownership)."
  },
  {
   "property": "C106",
   "status": "partial",
   "theorems": [
    "c106_defined",
    "c106_map",
    "c106_signs",
    "c106_closed",
    "c106_dangling_refuted",
    "c106_parallel_refuted",
    "c106_faces",
    "c106_opposite"
   ],
   "note": "REFUTED: a face with a dangling edge keeps only the first of the two signs (c106_dangling_refuted); of parallel cut edges only the last one is ever mentioned (c106_parallel_refuted). Proved: definedness, exact content, signs, closedness and opposite signs for faces using each side once."
  },
  {
   "property": "C107",
   "status": "partial",
   "theorems": [
    "c107_labelled",
    "c107_same_region",
    "c107_contiguous",
    "c107_outside",
    "c107_no_border",
    "c107_deterministic",
    "c107_gridline_refuted",
    "c107_generated",
    "c107_outside_refuted"
   ],
   "note": "REFUTED in two respects: without an uncut cell at the side of the domain, label 0 goes to the region of the first cut face wherever it is (c107_no_border, c107_outside_refuted: the inside of the input); input edges lying on a grid line do not separate regions (c107_gridline_refuted). Proved: definedness, same label iff linked through open edges, contiguity, label 0 when an uncut border cell exists, independence of the union-find policy, and that generated meshes meet the hypotheses (c107_generated)."
  },
  {
   "property": "C108",
   "status": "partial",
   "theorems": [
    "c108_length",
    "c108_plane_face",
    "c108_plane_norm",
    "c108_mesh_face",
    "c108_triangle_total",
    "c108_exterior_face",
    "c108_no_triangles_refuted",
    "c108_from_triangulation"
   ],
   "note": "REFUTED when the input triangles are missing: the vector is resized to the exterior faces (c108_no_triangles_refuted), and faces without a triangulation keep an uninitialised entry (c108_from_triangulation). Otherwise proved: size, sign, value for all three kinds of faces, total per triangle. Exterior areas use the wrong pair of spacings (see C54). Areas of input triangles are a parameter (square root)."
  },
  {
   "property": "C109",
   "status": "partial",
   "theorems": [
    "c109_interior",
    "c109_zero",
    "c109_external",
    "c109_unit_neighbour",
    "c109_exterior",
    "c109_boundary_uninitialised_refuted"
   ],
   "note": "REFUTED: entries of exterior faces on the domain boundary are never written (c109_boundary_uninitialised_refuted, every generated mesh); interior exterior faces depend on C57. All other entries proved. The Euclidean norm is a parameter."
  },
  {
   "property": "C110",
   "status": "partial",
   "theorems": [
    "c110_stars",
    "c110_mesh_face_zero",
    "c110_interior_face",
    "c110_boundary_uninitialised_refuted",
    "c110_no_triangles_refuted"
   ],
   "note": "REFUTED: domain boundary exterior faces are computed from an uninitialised length, and the quotient is undefined for cut faces without input triangles. Formulas, reciprocity and zero weight of the input mesh proved."
  },
  {
   "property": "C111",
   "status": "partial",
   "theorems": [
    "c111_sizes",
    "c111_uncut_refuted",
    "c111_defined_partial",
    "c111_laplacian_partial"
   ],
   "note": "REFUTED: B is faces x cells, so B * diag(h2) needs as many faces as cells; undefined on every uncut generated mesh (c111_uncut_refuted) and whenever the numbers differ (c111_sizes). c111_defined_partial and c111_laplacian_partial (coefficients, symmetry) say what is computed if they agree. The properties of the intended B^T H B are in C73."
  },
  {
   "property": "C112",
   "status": "proved",
   "theorems": [
    "c112_volumes",
    "c112_stars",
    "c112_exterior_total"
   ],
   "note": "All entries, their number and positions, the total of the exterior part and the reciprocal star."
  },
  {
   "property": "C113",
   "status": "partial",
   "theorems": [
    "c113_rows",
    "c113_shape",
    "c113_row_sum",
    "c113_alone",
    "c113_points",
    "c113_multiplicity",
    "c113_columns",
    "c113_soup_refuted",
    "c113_slice_rows_refuted"
   ],
   "note": "REFUTED: coinciding mesh vertices add their rows, so a row can sum to 2 and maps to twice the position (c113_soup_refuted); SliceGenerator::slice drops unused vertices, the map does not (c113_slice_rows_refuted). Proved: shape, exact value of every row as the sum over its carriers, row sum = number of carriers, exactness when a crossing is the only carrier, positions up to the bake threshold on edges, columns of cut_vertices."
  },
  {
   "property": "C114",
   "status": "proved",
   "theorems": [
    "c114_exact",
    "c114_set",
    "c114_connected",
    "c114_degenerate_refuted"
   ],
   "note": "Exactness, strict order, schedule independence, connectivity. c114_degenerate_refuted records that cut_edges() itself may hold degenerate edges that edges() drops."
  },
  {
   "property": "C115",
   "status": "partial",
   "theorems": [
    "c115_corner",
    "c115_own_edge",
    "c115_other",
    "c115_other_edge",
    "c115_own_interior",
    "c115_other_triangle_refuted"
   ],
   "note": "REFUTED for a crossing stored inside another triangle (c115_other_triangle_refuted): that triangle's coordinates are returned. All other cases proved; the linear solver is an external parameter assumed to solve the system."
  },
  {
   "property": "C116",
   "status": "partial",
   "theorems": [
    "c116_add",
    "c116_set",
    "c116_two_calls_refuted",
    "c116_duplicate_refuted"
   ],
   "note": "REFUTED: edges given in two calls (c116_two_calls_refuted) or an edge given twice (c116_duplicate_refuted) leave an uninitialised column or write outside the matrix, because has_e requires the edge in both maps. c116_add characterises exactly when add_edges is right; c116_set is the set variant."
  },
  {
   "property": "C117",
   "status": "partial",
   "theorems": [
    "c117_V",
    "c117_reindexer",
    "c117_compact",
    "c117_first_indices",
    "c117_inputs_partial",
    "c117_shift_refuted",
    "c117_is_new_refuted",
    "c117_compact_refuted"
   ],
   "note": "REFUTED: vertex(i) is shifted beyond the input vertices (c117_shift_refuted), compact_vertices repeats input vertices (c117_compact_refuted), every grid vertex is reported new (c117_is_new_refuted). V(i), num_vertices and vertex_reindexer proved; vertex(i)/is_orig_vertex agree for generic inputs (c117_inputs_partial)."
  },
  {
   "property": "C118",
   "status": "partial",
   "theorems": [
    "c118_vertices",
    "c118_edges2",
    "c118_edges3",
    "c118_grid_edges3_refuted",
    "c118_edges_defined",
    "c118_interp",
    "c118_params",
    "c118_other_edge_refuted"
   ],
   "note": "REFUTED: in 3D every grid edge is reported as a piece of input edge 0 (c118_grid_edges3_refuted); where input edges meet in a crossing the parameter on another edge is reported (c118_other_edge_refuted). Vertices, order, parents, masks, normals, axial ids and the other parameters proved."
  },
  {
   "property": "C119",
   "status": "partial",
   "theorems": [
    "c119_edges",
    "c119_slice",
    "c119_axial",
    "c119_both_ways_refuted"
   ],
   "note": "REFUTED in part: an undirected edge can be listed in both directions (c119_both_ways_refuted). Membership of edges(), edge_slice and axial_edges proved in full."
  },
  {
   "property": "C120",
   "status": "partial",
   "theorems": [
    "c120_accepts_exactly_partial",
    "c120_single_use_partial",
    "c120_signs_refuted",
    "c120_index_refuted",
    "c120_interior_refuted"
   ],
   "note": "REFUTED in part: signs do not matter, face number 1 is tested by index, single-use faces inside the grid are accepted (c120_*_refuted); proved: exactly what acceptance means"
  },
  {
   "property": "C121",
   "status": "partial",
   "theorems": [
    "c121_counts",
    "c121_accepts_exactly_partial",
    "c121_uncut_refuted",
    "c121_unmasked_refuted"
   ],
   "note": "REFUTED in part: a mesh with an uncut grid cell is always refused (mask never written), a cut cell outside the mask is not noticed; proved: the two counts and the acceptance condition exactly"
  },
  {
   "property": "C122",
   "status": "partial",
   "theorems": [
    "c122_region_volumes_partial",
    "c122_involution_partial",
    "c122_region_volumes_refuted",
    "c122_undefined_refuted"
   ],
   "note": "REFUTED: the two sides of the label map are swapped; proved: what is returned, and that it is right when the order of first appearance is an involution"
  },
  {
   "property": "C123",
   "status": "partial",
   "theorems": [
    "c123_accepts_exactly_partial",
    "c123_exact_refuted",
    "c123_wrong_refuted",
    "c123_brep_volumes"
   ],
   "note": "REFUTED: 'near' is the negation, so exact agreement is refused and wrong volumes accepted; proved: acceptance exactly, and brep_region_volumes"
  },
  {
   "property": "C124",
   "status": "partial",
   "theorems": [
    "c124_valences_exactly",
    "c124_accepts_exactly",
    "c124_positions_partial",
    "c124_loaded_refuted",
    "c124_undefined_refuted"
   ],
   "note": "REFUTED on loaded meshes (dual edges hold cell ids, read as grid positions; may read out of range); proved: the map exactly for any naming, and the check for meshes whose entries are positions (generated in memory)"
  },
  {
   "property": "C125",
   "status": "partial",
   "theorems": [
    "c125_counts_exactly",
    "c125_check_exactly",
    "c125_uniform_partial",
    "c125_refuted"
   ],
   "note": "REFUTED: triangulated_cell(true, true) always looks at cell 1; proved: the result exactly, and right when all cells agree"
  },
  {
   "property": "C126",
   "status": "partial",
   "theorems": [
    "c126_triangles_exactly",
    "c126_accepts_exactly",
    "c126_projection_unit",
    "c126_unit_exactly_partial",
    "c126_tiled_triangle",
    "c126_wide_cell_refuted",
    "c126_wall_refuted",
    "c126_normal_refuted",
    "c126_rows"
   ],
   "note": "REFUTED: wide exterior cells, walls of the domain and downward normals are refused; proved: acceptance exactly for any mesh, and in closed form for unit exterior cells; triangles tiled by their pieces are accepted"
  },
  {
   "property": "C127",
   "status": "partial",
   "theorems": [
    "c127_area_normal_exactly",
    "c127_triangle_refuted",
    "c127_quad_refuted",
    "c127_utilization_exactly",
    "c127_plane_faces_refuted",
    "c127_plane_faces_partial",
    "c127_containment_exactly",
    "c127_face_mask",
    "c127_triangle_loops_refuted",
    "c127_quad_loops_refuted",
    "c127_loops_add",
    "c127_mixed_loops_refuted"
   ],
   "note": "REFUTED in part: area_normal is 3 times (triangle) / 2 times (quad) the area vector (c127_triangle_refuted, c127_quad_refuted; exact formula c127_area_normal_exactly), and an unused in-plane mesh face with positive normal component is never reported (c127_plane_faces_refuted; c127_plane_faces_partial for the negative ones). Proved for all inputs: utilisation, containment and face_mask characterisations. Faces with several loops: c127_triangle_loops_refuted, c127_quad_loops_refuted, and the wrong direction for mixed loops in c127_mixed_loops_refuted."
  },
  {
   "property": "C128",
   "status": "proved",
   "theorems": [
    "c128_cells",
    "c128_defined",
    "c128_external",
    "c128_labelled",
    "c128_same_region",
    "c128_exterior_region",
    "c128_contiguous",
    "c128_zero"
   ],
   "note": "bake3 composes external boundaries, cell collapser, removals, adaptive factory, renumbering and labelling; no assumption of C40's input_ok is left: it is derived. Hypotheses: faces form a map with non-negative ids, and the grid is in a tiling case of C24 (unit level on any grid, or a 2^k cube). Includes definedness for proper vertices."
  },
  {
   "property": "C129",
   "status": "proved",
   "theorems": [
    "c129_cells_are_wedge_components",
    "c129_long_edges_usable",
    "c129_side_of_the_wedge",
    "c129_swept_is_the_open_wedge",
    "c129_tiny_edge_refuted"
   ],
   "note": "For edges of length >= 1e-8 (or whose eigen-axis is one the edge extends along). c129_tiny_edge_refuted shows the shorter-edge branch can join separated faces for a legitimate smallest-eigenvalue eigenvector. mtao::geometry::cyclic_order is external: assumed to order columns by counter-clockwise angle from some ray; Eigen normalized() = positive multiple."
  },
  {
   "property": "C130",
   "status": "proved",
   "theorems": [
    "c130_slice_mask",
    "c130_slice_exists",
    "c130_slice_edges",
    "c130_slice_boundary"
   ],
   "note": "Masks, existence of the records, edges and boundary edges of every slice, for every shape, crossings and plane (c130_slice_mask, c130_slice_exists, c130_slice_edges, c130_slice_boundary). Planes without a record go through compute_planar_hem's adaptive mode, which is not part of this claim."
  },
  {
   "property": "C131",
   "status": "partial",
   "theorems": [
    "c131_defined",
    "c131_centroid",
    "c131_hull",
    "c131_layout",
    "c131_exterior_located",
    "c131_in_grid_cell",
    "c131_cut_located",
    "c131_open_piece_refuted"
   ],
   "note": "REFUTED: a loop without area (an open piece of the input inside a face) makes the whole column NaN (c131_open_piece_refuted; c131_defined says exactly when it is a number). Otherwise proved: layout, centre of mass for any filling family of triangles, strict convex hull, grid cell, relocation of centroids. curve_centroid/curve_volume are external (their formulas are in the model)."
  },
  {
   "property": "C132",
   "status": "partial",
   "theorems": [
    "c132_fan_fills",
    "c132_generated",
    "c132_nonconvex_refuted",
    "c132_several_loops_refuted",
    "c132_cache",
    "c132_polygons",
    "c132_holes_refuted"
   ],
   "note": "REFUTED: generated faces carry the default identity, so the fan is used: triangles outside non-convex faces (c132_nonconvex_refuted), faces with several loops never get triangles (c132_several_loops_refuted), faces() covers the holes too (c132_holes_refuted). Proved: exactly when the fan is defined, its vertices, number, and that it fills the loop (c132_generated, c132_fan_fills), the polygons handed to ear clipping, caching."
  },
  {
   "property": "C133",
   "status": "partial",
   "theorems": [
    "c133_defined",
    "c133_cells",
    "c133_edge_cells",
    "c133_domain",
    "c133_constants",
    "c133_location",
    "c133_uncut_refuted"
   ],
   "note": "Proved for every planar subdivision in which uncut regions are recognisable (generation defined, cells, two cells per edge with opposite signs, border edges, constants in the kernel, point location). REFUTED without that condition: an enclosed L-shaped region of uncut cells is kept as a cut cell (c133_uncut_refuted). The half-edge mesh is external; its properties are the hypothesis `subdivision`, met by c133_witness."
  },
  {
   "property": "C134",
   "status": "partial",
   "theorems": [
    "c134_defined",
    "c134_faces",
    "c134_generated",
    "c134_two_cells",
    "c134_constants",
    "c134_folded_row",
    "c134_location",
    "c134_regions",
    "c134_folded_refuted",
    "c134_island_refuted"
   ],
   "note": "Proved: definedness, faces, cells, generated-mesh hypotheses of C73/C82/C84, two cells per inside face, constants in the kernel without folded faces, point location, regions. REFUTED: constants under the laplacian when a face is folded (c134_folded_row in general, c134_folded_refuted a case); cut cells filling the cut part of the domain (c134_island_refuted). The external stage (faces from the half-edge meshes) is the hypothesis `stage_ok`, met by slab_ok / c134_case; tiling_case as in C24."
  },
  {
   "property": "C135",
   "status": "partial",
   "theorems": [
    "c135_cell_faces",
    "c135_boundary_faces",
    "c135_cell_triplets",
    "c135_triplets_refuted",
    "c135_face_boundary_refuted",
    "c135_grid_cell_refuted",
    "c135_generated"
   ],
   "note": "REFUTED in part: CutCell::boundary_triplets has the sign opposite to the boundary operator, face_boundary() is zero, the grid-cell accessors return -1 everywhere. cell_faces and boundary_faces proved in full."
  },
  {
   "property": "C136",
   "status": "partial",
   "theorems": [
    "c136_defined",
    "c136_cut_faces",
    "c136_simple_faces",
    "c136_trapezoid_refuted",
    "c136_exterior_partial",
    "c136_walls_refuted"
   ],
   "note": "REFUTED: vertex mean is not the centre of mass of a trapezoid, domain-wall exterior faces get (0,0,0), exterior faces whose lower cell is smaller are displaced. Proved: definedness, vertex mean, convex hull, plane, exactness for triangles and parallelograms, the exact exterior value."
  },
  {
   "property": "C137",
   "status": "partial",
   "theorems": [
    "c137_faces",
    "c137_defined",
    "c137_once",
    "c137_axis_sets",
    "c137_consistent",
    "c137_lost_refuted",
    "c137_twice_refuted"
   ],
   "note": "REFUTED: after a slice whose half-edge mesh has no cell the numbering restarts and faces with a used number are missing in the mesh (c137_lost_refuted); a surface piece in a grid plane facing the negative direction appears twice (c137_twice_refuted). Proved for all inputs in which every slice has a cell: the faces of the mesh are exactly the pieces with >= 3 vertices and the slice faces with a kept loop, each once, with normal, mask, parent, barycentric data (c137_faces), when the stage succeeds (c137_defined), positive-facing coplanar pieces are not repeated (c137_once), and the result meets the hypotheses of C73/C82/C84/C134 (c137_consistent)."
  },
  {
   "property": "C138",
   "status": "partial",
   "theorems": [
    "c138_surface",
    "c138_defined",
    "c138_selection_refuted",
    "c138_files",
    "c138_files_refuted",
    "c138_options_refuted",
    "c138_inward_refuted",
    "c138_after_triangulation",
    "c138_tool",
    "c138_mixed_refuted",
    "c138_whole_mesh_refuted"
   ],
   "note": "REFUTED: setConstant(1) overwrites the selection (c138_selection_refuted, c138_files_refuted), main returns after exterior.obj whatever the options (c138_options_refuted), and border squares of uncut cells face inwards (c138_inward_refuted, c138_mixed_refuted). Proved: what is written is each border face of the domain once, cut faces in their cell orientation, and exactly when it is defined (c138_surface, c138_defined, c138_tool); which cells each unreached file is for (c138_files) Every per-cell file is a copy of the whole-mesh file (c138_whole_mesh_refuted)."
  },
  {
   "property": "C139",
   "status": "proved",
   "theorems": [
    "c139_matrix",
    "c139_kernel",
    "c139_no_jump",
    "c139_constants"
   ],
   "note": "Exact rationals; the Hodge weights are a parameter (C110 gives dual_hodge2). The kernel is stated with the rows of boundary(); c139_no_jump spells out a face with two cells."
  },
  {
   "property": "C140",
   "status": "partial",
   "theorems": [
    "c140_values",
    "c140_total",
    "c140_compatible",
    "c140_residual",
    "c140_converged",
    "c140_unsolvable_refuted",
    "c140_one_layer_refuted",
    "c140_wide_refuted",
    "c140_single_refuted"
   ],
   "note": "REFUTED: the system need not be solvable (c140_unsolvable_refuted, c140_one_layer_refuted, c140_wide_refuted), and on a single uncut cell the solver divides by zero (c140_single_refuted). Proved: the exact right-hand side, its total, the compatibility condition, and that the solver cannot stop early unless |low-high| * 100000 <= number of cells."
  },
  {
   "property": "C141",
   "status": "proved",
   "theorems": [
    "c141_example",
    "c141_result",
    "c141_best",
    "c141_defined",
    "c141_small",
    "c141_preconditioner"
   ],
   "note": "Exact arithmetic (None = a division by zero, NaN in the code). The factorization that produces the preconditioner's factors is not modelled: the factors are arbitrary, and definiteness assumes positive pivots."
  },
  {
   "property": "C142",
   "status": "proved",
   "theorems": [
    "c142_values",
    "c142_repaired"
   ],
   "note": "For any square matrix (values) and for symmetric ones (solutions). In the example the call sits in a branch disabled by if constexpr(false)."
  },
  {
   "property": "C143",
   "status": "partial",
   "theorems": [
    "c143_recurrence",
    "c143_pivots",
    "c143_defined",
    "c143_definite",
    "c143_zero_row",
    "c143_solver",
    "c143_two",
    "c143_exact_refuted",
    "c143_example"
   ],
   "note": "REFUTED as an exact factorization (c143_exact_refuted, c143_two); positivity of the pivots, symmetry and definiteness, convergence within tolerance for up to nine unknowns and the recurrences of all entries are proved"
  },
  {
   "property": "C144",
   "status": "partial",
   "theorems": [
    "c144_exact",
    "c144_solve",
    "c144_units_refuted"
   ],
   "note": "REFUTED for small pivots (c144_units_refuted: the threshold 1e-4 is absolute); above it exactness of getA and solve are proved for every size"
  },
  {
   "property": "C145",
   "status": "partial",
   "theorems": [
    "c145_file",
    "c145_writes",
    "c145_facets_once",
    "c145_read_back_partial",
    "c145_read_back_refuted",
    "c145_uncut_refuted"
   ],
   "note": "REFUTED in part: the file cannot be read back by read_plcurve when the mesh has more edges than vertices (c145_read_back_refuted; every uncut mesh of at least 2x2 cells, c145_uncut_refuted). Everything else is proved in full: c145_file, c145_writes, c145_facets_once, c145_read_back_partial (read back when edges <= vertices)."
  },
  {
   "property": "C146",
   "status": "partial",
   "theorems": [
    "c146_edges",
    "c146_indices",
    "c146_degrees",
    "c146_lines",
    "c146_count",
    "c146_add_point",
    "c146_undo",
    "c146_new_curve",
    "c146_clear",
    "c146_toggle",
    "c146_sessions",
    "c146_save_closed",
    "c146_save_open_refuted",
    "c146_degenerate_refuted",
    "c146_degenerate"
   ],
   "note": "Edges, indices, degrees, lines, counts, all histories and saving of closed drawings proved. REFUTED: open curves do not survive save and read (c146_save_open_refuted); a closed one-point curve gives a degenerate edge (c146_degenerate_refuted, exact characterization c146_degenerate). load is not modelled."
  },
  {
   "property": "C147",
   "status": "partial",
   "theorems": [
    "c147_triangles",
    "c147_one_per_vertex_set",
    "c147_ext",
    "c147_idempotent",
    "c147_orientation_refuted"
   ],
   "note": "Deduplication proved exactly (c147_triangles, c147_ext, c147_idempotent). REFUTED: orientation, for every closed surface (c147_orientation_refuted)."
  },
  {
   "property": "C148",
   "status": "partial",
   "theorems": [
    "c148_three_words",
    "c148_one_word_refuted",
    "c148_two_words_refuted",
    "c148_trailing_blank",
    "c148_all_cases",
    "c148_shape"
   ],
   "note": "Accepted inputs proved for all strings with a complete case list (c148_all_cases). REFUTED: fewer than three words are accepted by starting over (c148_one_word_refuted, c148_two_words_refuted). strtod/atoi/stoi are arguments."
  },
  {
   "property": "C149",
   "status": "partial",
   "theorems": [
    "c149_similar",
    "c149_untouched",
    "c149_centred",
    "c149_undefined",
    "c149_box",
    "c149_flat_refuted",
    "c149_level"
   ],
   "note": "Placement and box containment proved. REFUTED: positive extent of the grid's box for flat meshes (c149_flat_refuted)."
  },
  {
   "property": "C150",
   "status": "proved",
   "theorems": [
    "c150_counts",
    "c150_total",
    "c150_mesh",
    "c150_outside",
    "c150_inside"
   ],
   "note": "Region counts, their sum, and the report of misplaced cells; region list per C70-style regions() model (regions3)."
  },
  {
   "property": "C151",
   "status": "partial",
   "theorems": [
    "c151_merged",
    "c151_faces",
    "c151_flat_partial",
    "c151_nested_refuted"
   ],
   "note": "REFUTED for nested outer loops (c151_nested_refuted, example of three nested squares): two outer loops around one common hole become one face. Proved: the exact partition (c151_merged), the loops of faces() (c151_faces), and the intended result when no hole is in two outer loops (c151_flat_partial). The winding number test and std::sort are arguments."
  },
  {
   "property": "C152",
   "status": "partial",
   "theorems": [
    "c152_frame",
    "c152_grid_shown",
    "c152_box_ordered",
    "c152_zero_size_refuted",
    "c152_pad",
    "c152_pad_refuted"
   ],
   "note": "REFUTED: that the box always keeps positive size (typing the maximum as minimum gives a box of size zero: c152_zero_size_refuted; in float the padding of thin boxes far from the origin is rounded away: c152_pad_refuted). Proved for every history: a frame without input changes nothing, every other frame's values are taken over and cut as stated and reach the generator (c152_frame), the generator always works on the grid and level shown (c152_grid_shown), the box is never inside out (c152_box_ordered), and with exact numbers new vertices give a box of positive size (c152_pad)."
  },
  {
   "property": "C153",
   "status": "partial",
   "theorems": [
    "c153_make",
    "c153_parameters",
    "c153_offset",
    "c153_box_controls_refuted",
    "c153_fail_refuted",
    "c153_saved",
    "c153_save_count",
    "c153_choice",
    "c153_plane_edges",
    "c153_stale_display_refuted",
    "c153_display"
   ],
   "note": "REFUTED: that the window's own bounding box controls change the grid (they write a box nothing reads: leaving them out of any session changes nothing, c153_box_controls_refuted); that no session fails (the edge choice before the first mesh dereferences an empty optional: exactly those sessions fail, c153_fail_refuted); that the edges shown belong to the mesh at hand (a mesh without mesh faces leaves those of the mesh before, c153_stale_display_refuted). Proved for every session: the mesh made (c153_make), what is saved and how often (c153_saved, c153_save_count), the chosen plane is in range (c153_choice), the edges of every plane (c153_plane_edges), and the display after a mesh with mesh faces (c153_display)."
  },
  {
   "property": "C154",
   "status": "partial",
   "theorems": [
    "c154_table",
    "c154_edges",
    "c154_cap",
    "c154_above",
    "c154_input",
    "c154_cavity_refuted",
    "c154_outside_refuted",
    "c154_orientation_refuted"
   ],
   "note": "REFUTED: that vertices which land on grid points are vertices of the slicer's grid (the box need not contain the mesh; such a vertex gets index -8, c154_outside_refuted); that the result is consistently oriented (cap and kept faces run in the same direction along the section, c154_orientation_refuted); that hollows stay open (the cap depends on the cut edges only, c154_cavity_refuted). Proved for all inputs: the vertex table (c154_table), the edges of the cap (c154_edges), the cells capped (c154_cap), the half space and completeness of the result (c154_above), input vertices (c154_input). mtao's half-edge mesh and the triangulation libraries are arguments assumed to use only the vertices handed to them."
  },
  {
   "property": "C155",
   "status": "partial",
   "theorems": [
    "c155_face_edges",
    "c155_result",
    "c155_direction",
    "c155_polygon",
    "c155_once",
    "c155_twice_refuted",
    "c155_small_refuted"
   ],
   "note": "REFUTED: a closed curve comes back twice when the tracing follows edge directions (c155_twice_refuted), or whenever its squared area is at most 1e-10 (c155_small_refuted). Proved: what face_edges lists, exactly which curves are returned, the direction rule, the two faces of every simple polygon, and that it comes back once otherwise (c155_once)."
  },
  {
   "property": "C156",
   "status": "partial",
   "theorems": [
    "c156_reset_open_refuted",
    "c156_mesh",
    "c156_safe",
    "c156_browse_refuted",
    "c156_file_refuted",
    "c156_face",
    "c156_cursor",
    "c156_vertices",
    "c156_highlight",
    "c156_highlight_stale_refuted",
    "c156_leave_refuted",
    "c156_fill",
    "c156_box",
    "c156_start_box"
   ],
   "note": "REFUTED: the square of \"Reset Curve\" and of the start is open (c156_reset_open_refuted); Browse before a mesh, and every start with a file, reads the missing mesh at the first mouse move or click (c156_browse_refuted, c156_file_refuted); choosing a colour type, turning the direction or making a new mesh puts other vertices under the highlighted triangles (c156_highlight_stale_refuted); leaving every cell leaves the old highlight (c156_leave_refuted). Proved: the mesh, the box, no crash when Browse is chosen only after the first \"Make CCM\" (c156_safe, for a generator that always returns a consistent mesh), the face index, the highlight right after it is made, the filled cells. GL state is the data put into buffers; the box may be flat."
  },
  {
   "property": "C157",
   "status": "partial",
   "theorems": [
    "c157_flux",
    "c157_tangential_refuted",
    "c157_interior",
    "c157_scaled",
    "c157_colors"
   ],
   "note": "REFUTED: a border edge of a cut cell gets the component of the direction along the border, not across it (c157_tangential_refuted). Proved: one flux per edge, 0 inside, the facets of the exterior grid, cells without flux, the colours in every mode. dual_hodge1 and the solver are arguments."
  },
  {
   "property": "C158",
   "status": "partial",
   "theorems": [
    "c158_controls",
    "c158_shown",
    "c158_visible",
    "c158_save",
    "c158_save_stale_refuted",
    "c158_save_empty_refuted",
    "c158_once",
    "c158_vertex_colors",
    "c158_region_colors",
    "c158_region_nan_refuted",
    "c158_region_hues",
    "c158_centers_ok"
   ],
   "note": "REFUTED: Save without a region chosen writes an earlier mesh or an empty one (c158_save_stale_refuted, c158_save_empty_refuted); Region colors with region 0 alone is 0/0 (c158_region_nan_refuted). Proved: the window's meshes and colours after every event, the controls, Save with a region chosen, the region colours. The slicer and its colour map are arguments; GL state is the data put into buffers."
  },
  {
   "property": "C159",
   "status": "partial",
   "theorems": [
    "c159_edges",
    "c159_cell_edges",
    "c159_complete",
    "c159_mirror_refuted",
    "c159_overlap_refuted",
    "c159_numbers",
    "c159_numbers_refuted",
    "c159_border",
    "c159_border_refuted",
    "c159_read_refuted"
   ],
   "note": "REFUTED: which edges of active cells appear depends on the block order, so mirrored activity does not give mirrored edges (c159_mirror_refuted); a long edge and its half both appear (c159_overlap_refuted); on a grid that is not a power-of-two cube the numbers exceed the grid's vertices (c159_numbers_refuted); border edges in only the second transverse axis are missing from the boundary edges, :194-198 tests bidx0 twice (c159_border_refuted); on 4x2x2 the masks are read beyond their end (c159_read_refuted). Proved for all inputs: the exact set of edges (c159_edges), every edge is an edge of an emitted cell (c159_cell_edges), every edge of an emitted cell away from active cells is there (c159_complete), the numbers on power-of-two cubes (c159_numbers), what is entered as boundary edge (c159_border)."
  },
  {
   "property": "C160",
   "status": "partial",
   "theorems": [
    "c160_viewer",
    "c160_in_range",
    "c160_grid_cells_refuted",
    "c160_chaser",
    "c160_chaser_shown",
    "c160_chaser_lost_refuted",
    "c160_slicer",
    "c160_slicer_file",
    "c160_slicer_stale_refuted",
    "c160_extract",
    "c160_extract_status_refuted"
   ],
   "note": "REFUTED: a mesh whose cells are all grid cells never shows one in the viewer (update_cell returns when there are no cut cells, c160_grid_cells_refuted); a point in no cell brings up cell 0 in the chaser (c160_chaser_lost_refuted); an empty slice leaves the window as it was while Save writes the empty mesh (c160_slicer_stale_refuted); the extractor exits with 0 without writing (c160_extract_status_refuted). Proved: the rest of the statement, for every mesh and history."
  },
  {
   "property": "C161",
   "status": "partial",
   "theorems": [
    "c161_edges",
    "c161_range",
    "c161_exterior",
    "c161_inside",
    "c161_zero_rows",
    "c161_single_layer_refuted"
   ],
   "note": "REFUTED for a grid with a single layer of cells along an axis: the exterior cells' edges on its last line do not exist in the exterior grid and so are missing (c161_single_layer_refuted, example c161_ex). Proved: the exact set for every mesh, its range, completeness for the exterior part with two layers or more, that inner edges are not in it, and that the exterior edges in it are exactly the zero rows of boundary(mesh, false)."
  },
  {
   "property": "C162",
   "status": "partial",
   "theorems": [
    "c162_entry",
    "c162_length",
    "c162_masks",
    "c162_renumbered_refuted",
    "c162_refuted_domain_boundary_masks",
    "c162_domain_boundary_masks_complementary"
   ],
   "note": "REFUTED after baking: bake_cells renumbers the cells but not the dual edges of the faces, so boundary_face_mask reports inner faces as boundary ones (c162_renumbered_refuted); and REFUTED for exterior grids with an exterior cell on a high side, where both DomainBoundary masks throw (c162_refuted_domain_boundary_masks). Proved: the exact meaning of every entry, agreement of the two masks for the faces made from the cells of any grid, and that the DomainBoundary masks are complementary when they do not throw."
  }
 ]
}