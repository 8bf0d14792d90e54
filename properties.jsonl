{"id": "C01", "title": "coord_mask intersection is the set of shared grid planes", "statement": "For masks a, b, `a & b` binds axis i to value v iff both a and b bind axis i to v; hence it is commutative, associative, idempotent, and is the largest mask subsumed by both a and b.", "quantifier": "all dimensions D, all masks a, b, c (any mix of bound/unbound axes, any integer values)", "why_tests_cant": "The number of masks is infinite and the law relates triples of masks; tests sample a few planes.", "anchors": ["include/mandoline/coord_mask_impl.hpp: operator&=, operator&, subsumes"]}
{"id": "C02", "title": "coord_mask partial ordering decides plane-set inclusion", "statement": "`a.partial_ordering(b)` returns Equal iff a and b bind exactly the same planes, Greater iff a's planes strictly contain b's, Less iff strictly contained, Unknown otherwise; `subsumes`/`strict_subsumes` are therefore a partial order / strict partial order, whatever the axis order in which differences show up.", "quantifier": "all D, all pairs of masks", "why_tests_cant": "The loop exits early and carries state across axes; only a proof covers each order of differences.", "anchors": ["include/mandoline/coord_mask_impl.hpp: partial_ordering, subsumes, strict_subsumes"]}
{"id": "C03", "title": "coord_mask union and difference", "statement": "`a | b` is documented to bind the planes that either mask has; `a - b` binds exactly the planes of a on axes that b leaves unbound.", "quantifier": "all D, all pairs of masks", "why_tests_cant": "Quantifies over all masks; the documented union is violated on inputs no test contains.", "anchors": ["include/mandoline/coord_mask.hpp: operator| (lines 73-75)", "include/mandoline/coord_mask_impl.hpp: operator|=, operator-="]}
{"id": "C04", "title": "possible_cells of a mask enumerates exactly the incident cells", "statement": "For a mask and a coordinate, possible_cells returns exactly the cells that equal coord on unbound axes and are coord or coord-1 on bound axes, each once: 2^count() cells.", "quantifier": "all D, masks, coordinates", "why_tests_cant": "Bit enumeration over all subsets of axes for every dimension.", "anchors": ["include/mandoline/coord_mask_impl.hpp: possible_cells, count, as_bitset"]}
{"id": "C05", "title": "Vertex::possible_cells is geometric incidence", "statement": "For a normalised vertex (fractional parts in [0,1)), possible_cells() contains a grid cell c iff the closed unit cube at c contains the point p() = coord + quot.", "quantifier": "all D, all normalised vertices, all cells", "why_tests_cant": "Ranges over every real position and every cell, including points on planes, lines and corners of the lattice.", "anchors": ["include/mandoline/vertex_impl.hpp: possible_cells, mask, p", "include/mandoline/coord_mask_impl.hpp: possible_cells"]}
{"id": "C06", "title": "A face's possible cells are exactly the cells containing all its vertices", "statement": "If some closed grid cell contains every vertex of an edge or (multi-loop) face, then possible_cells() computed from the element's shared mask and minimum coordinate is exactly the set of closed cells containing all its vertices, i.e. the intersection of its vertices' possible cells.", "quantifier": "all D, all finite nonempty vertex lists / loop sets of normalised vertices", "why_tests_cant": "Unbounded polygon sizes and positions; the mask shortcut and the intersection are computed by different code paths that must agree everywhere.", "anchors": ["include/mandoline/coord_masked_geometry_impl.hpp: get_container_mask, get_min_coord, possible_cells", "include/mandoline/construction/generator_impl.hpp: possible_cells"]}
{"id": "C07", "title": "Vertex construction and repair preserve position and normalise", "statement": "from_vertex(p) and repair() never move the point (p() is unchanged), leave every fractional part in [0,1), and after from_vertex an axis is flagged clamped iff the point lies on that grid plane; the integer part is the floor. ", "quantifier": "all D, all exact positions", "why_tests_cant": "All real inputs; boundary behaviour at negative and integral values.", "anchors": ["include/mandoline/vertex_impl.hpp: from_vertex, repair, bs_from_quot, p"]}
{"id": "C08", "title": "Vertex ordering is a strict total order compatible with ==", "statement": "operator< is irreflexive, transitive and total up to operator==, which for normalised vertices coincides with equality of position; so std::map/std::set keyed by vertices merge exactly coincident points.", "quantifier": "all D, all triples of vertices", "why_tests_cant": "Order axioms quantify over all triples; std::map has undefined behaviour if one fails.", "anchors": ["include/mandoline/vertex_impl.hpp: operator<, operator=="]}
{"id": "C09", "title": "Vertex arithmetic is exact affine arithmetic", "statement": "p(a+b)=p(a)+p(b), p(a-b)=p(a)-p(b), p(a*s)=s*p(a), p(a.lerp(b,t))=(1-t)p(a)+t p(b); all results are normalised; clamped flags are never set on an axis where the result is off-plane when the operands' flags were right.", "quantifier": "all D, vertices, scalars (exact arithmetic)", "why_tests_cant": "Quantifies over all reals; carry between fractional and integer parts.", "anchors": ["include/mandoline/vertex_impl.hpp: operator+, operator-, operator*, lerp"]}
{"id": "C10", "title": "Thresholding snaps only nearby coordinates and stays normalised", "statement": "apply_thresholding(t) treats each coordinate of a normalised vertex separately: either it is unchanged (position and flag) and at distance >= t from every integer plane, or it is moved by less than 2t onto an integer plane and flagged as clamped; so every coordinate strictly within t of a plane is snapped. Fractional parts stay in [0,1) and the operation is idempotent.", "quantifier": "all D, normalised vertices, thresholds 0<=t<=1/2", "why_tests_cant": "All real positions and thresholds; strictness of comparisons at the boundary.", "anchors": ["include/mandoline/vertex_impl.hpp: apply_thresholding"]}
{"id": "C11", "title": "Vertex::approx agrees with distance", "statement": "v.approx(o) holds iff every coordinate of p(v) and p(o) differs by at most threshold_epsilon (in particular across an integer plane).", "quantifier": "all normalised vertex pairs", "why_tests_cant": "Ranges over all positions; the cross-plane branch is reached only for nearly coincident points in adjacent cells.", "anchors": ["include/mandoline/vertex_impl.hpp: approx"]}
{"id": "C12", "title": "SubGridTransformer embeds and projects slices losslessly", "statement": "For any axis and slice coordinate, downgrade(upgrade(v)) = v for coordinates, fractional vectors, flags, and vertices; upgrade(downgrade(w)) = w exactly for vertices w lying on the slice plane; grid vertex indices survive upgrade then downgrade.", "quantifier": "axis in 0..2, all slice coordinates, vertices, grid indices in range", "why_tests_cant": "All axes, coordinates and grid shapes.", "anchors": ["src/construction/subgrid_transformer.cpp", "include/mandoline/construction/subgrid_transformer.hpp: _upgrade, _downgrade"]}
{"id": "C13", "title": "Intersection points carry a strict weak order usable as map keys", "statement": "EdgeIntersection::operator< is a strict weak order (irreflexive, transitive, incomparability transitive).", "quantifier": "all triples of edge intersections", "why_tests_cant": "Order laws quantify over all triples; violating one is undefined behaviour in std::set.", "anchors": ["include/mandoline/construction/vertex_types_impl.hpp: EdgeIntersection operator<"]}
{"id": "C14", "title": "Crossing fusion assigns one index per distinct position", "statement": "Index assignment gives two crossings the same index iff they are at the same vertex; crossings on grid vertices get that grid vertex's index, all others get consecutive indices starting at the grid vertex count, with no gaps.", "quantifier": "all finite crossing lists, all grids", "why_tests_cant": "Ranges over all sequences with arbitrary duplicates.", "anchors": ["include/mandoline/construction/cutdata_impl.hpp: compute_crossings / fuse", "include/mandoline/construction/vertex_types_impl.hpp: populate_crossing_indices"]}
{"id": "C15", "title": "Cut grid edges are subdivided without gaps or overlaps", "statement": "Subdividing a grid edge at its crossings yields a chain of sub-edges from the first to the last end vertex, ordered by coordinate, each crossing used, consecutive sub-edges sharing a vertex, none degenerate.", "quantifier": "all crossing multisets on an edge", "why_tests_cant": "Any number of crossings in any order.", "anchors": ["include/mandoline/construction/generator_impl.hpp: bake_edges"]}
{"id": "C16", "title": "smallest_ordered_edge is a rotation-invariant canonical key", "statement": "For a closed loop smallest_ordered_edge returns a directed edge of the loop, lexicographically minimal, unchanged by rotating the loop; smallest_ordered_edge_reverse(v) is the key under which the reversed loop is later looked up.", "quantifier": "all loops of length >= 1, all rotations", "why_tests_cant": "Unbounded loop length.", "anchors": ["src/construction/generator.cpp: smallest_ordered_edge, smallest_ordered_edge_reverse", "src/construction/generator3_make_faces.cpp: bake_faces, add_loop"]}
{"id": "C17", "title": "FaceCollapser successor is a permutation of half-edges", "statement": "After baking any finite set of non-degenerate undirected edges with any vertex positions, following the successor map from a half-edge a->b yields a half-edge b->c, the map is a bijection on the set of all half-edges, so every half-edge lies on exactly one closed boundary loop.", "quantifier": "all finite edge sets, all position assignments (even degenerate angles)", "why_tests_cant": "Any planar or non-planar input graph.", "anchors": ["src/construction/face_collapser.cpp / include/mandoline/construction/face_collapser.hpp: collect_edges, unify_boundary_loops"]}
{"id": "C18", "title": "FaceCollapser faces partition the half-edges", "statement": "Face ids returned for half-edges: two half-edges on the same boundary loop get the same face; every edge contributes each of its two sides to exactly one face; without hole merging the faces are exactly the loops and ids are 0..n-1 with no gaps.", "quantifier": "all finite edge sets and positions", "why_tests_cant": "Quantifies over graphs.", "anchors": ["src/construction/face_collapser.cpp / include/mandoline/construction/face_collapser.hpp: finalize, faces, faces_no_holes, face_edges"]}
{"id": "C19", "title": "FaceCollapser edge removal removes the requested boundary", "statement": "set_edges_for_removal(loop) marks the half-edges along the given vertex loop (and no others) as outside.", "quantifier": "all boundary loops", "why_tests_cant": "Index-vs-value mistakes coincide on loops 0,1,2,... used in tests.", "anchors": ["src/construction/face_collapser.cpp / include/mandoline/construction/face_collapser.hpp: set_edges_for_removal, set_edge_for_removal"]}
{"id": "C20", "title": "CellCollapser assigns every face side to exactly one cell", "statement": "After collapsing, each of the two sides of every surviving face belongs to exactly one cell; cell ids are 0..n-1; a face is reported folded exactly when both its sides are in the same cell, and otherwise it occurs with opposite signs in exactly two cells.", "quantifier": "all finite face sets with any cyclic orders around edges", "why_tests_cant": "Quantifies over all polygon complexes.", "anchors": ["src/construction/cell_collapser.cpp / include/mandoline/construction/cell_collapser.hpp: merge, fill_cell_boundaries, folded_faces"]}
{"id": "C21", "title": "CellCollapser merges exactly the dihedrally adjacent sides", "statement": "Two face sides end in the same cell iff they are connected by a chain of steps, each crossing a shared manifold edge from one face to the next face in the cyclic order around that edge (or staying on the same side of one face).", "quantifier": "all finite face sets and cyclic orders", "why_tests_cant": "Reachability over unbounded chains.", "anchors": ["src/construction/cell_collapser.cpp / include/mandoline/construction/cell_collapser.hpp: merge_around_edge, collect_halffaces"]}
{"id": "C22", "title": "Boundary-cell removal filters exactly the boundary cells", "statement": "remove_boundary_cells and remove_grid_boundary_cells / by-volume delete exactly the cells satisfying the documented predicate, leave every other cell's faces and signs untouched, and never add cells.", "quantifier": "all cell maps, all face sets, all volume vectors", "why_tests_cant": "Arbitrary maps.", "anchors": ["src/construction/cell_collapser.cpp / include/mandoline/construction/cell_collapser.hpp: remove_boundary_cells, remove_grid_boundary_cells, remove_boundary_cells_by_volume"]}
{"id": "C23", "title": "Disjoint-set merging computes connected components", "statement": "After any sequence of add_node/join calls two nodes have the same root iff they are connected by the joined pairs; roots are nodes.", "quantifier": "all operation sequences", "why_tests_cant": "Histories are unbounded.", "anchors": ["mtao DisjointSet as used by face_collapser, cell_collapser, generator3 bake_cells"]}
{"id": "C24", "title": "Adaptive coarsening tiles the uncut region", "statement": "For every active mask on a grid whose sides are divisible by 2^levels, the cells produced by the factory are pairwise disjoint axis-aligned cubes, each consists of inactive unit cells only, and every inactive unit cell is covered exactly once.", "quantifier": "all masks, grid sizes, levels", "why_tests_cant": "2^(n^3) masks.", "anchors": ["src/construction/adaptive_grid_factory.cpp: make_cells, make_edges/levels"]}
{"id": "C25", "title": "cell_ownership_grid maps each unit cell to its owner", "statement": "For disjoint in-range cells, cell_ownership_grid()(c) is the id of the unique cell containing c and -1 elsewhere.", "quantifier": "all finite families of disjoint in-range cells", "why_tests_cant": "Any set of cells/sizes.", "anchors": ["src/adaptive_grid.cpp: grid_from_cells"]}
{"id": "C26", "title": "Adaptive-grid boundary faces separate distinct neighbouring cells", "statement": "Every reported face's two owners are different, adjacent along its axis, or one is the domain exterior (-2); every adjacent pair of owned cells along an axis gets exactly one face per axis; domain-side faces are listed.", "quantifier": "all ownership grids", "why_tests_cant": "Any layout.", "anchors": ["src/adaptive_grid.cpp: faces(grid), add_bdry"]}
{"id": "C27", "title": "grid_cell_projection rows average unit cells", "statement": "For each adaptive cell of width w the projection triplets are w^3 entries 1/w^3 to exactly the unit cells inside it; they sum to 1.", "quantifier": "all cells/widths", "why_tests_cant": "Any width.", "anchors": ["src/adaptive_grid.cpp: grid_cell_projection"]}
{"id": "C28", "title": "Adaptive cells and faces survive serialization", "statement": "from_proto(serialize(x)) = x for Cell, Square and Face.", "quantifier": "all cells, squares, faces", "why_tests_cant": "Field-swap is invisible whenever the two fields are equal.", "anchors": ["src/adaptive_grid.cpp: Cell/Square/Face serialize, from_proto"]}
{"id": "C29", "title": "Adaptive cell triangulation is a closed outward surface", "statement": "triangulated(cell) uses only the 8 corner vertices of the cube, every directed edge occurs once and its reverse once (closed oriented surface), and its signed volume is +w^3.", "quantifier": "all corners and widths", "why_tests_cant": "Symbolic in the position and width.", "anchors": ["src/adaptive_grid.cpp: triangulated"]}
{"id": "C30", "title": "AdaptiveGrid cell faces helper", "statement": "face(cell, axis, sign) returns the four corner vertices of that side of the cube.", "quantifier": "all cells, axes, signs", "why_tests_cant": "Uninitialised entries look fine in debug runs.", "anchors": ["src/adaptive_grid.cpp: face"]}
{"id": "C31", "title": "CutCell, CutFace and Vertex protobuf round trips", "statement": "from_proto(serialize(x)) reproduces every serialized field of CutCell (index, region, grid_cell, face signs), CutFace (normal, id, curves, external boundary; triangulation) and Vertex.", "quantifier": "all values", "why_tests_cant": "Infinite value space, optional fields.", "anchors": ["src/cutcell.cpp: serialize, from_proto", "src/cutface3.cpp: serialize, from_proto", "src/proto_util.cpp"]}
{"id": "C32", "title": "CutCellMesh<3> protobuf round trip", "statement": "Saving and loading a mesh preserves grid geometry, cut vertices, original mesh, faces (masks recomputed identically), cells, folded faces, barycentric face maps, cubes and regions.", "quantifier": "all meshes", "why_tests_cant": "All meshes and fields.", "anchors": ["src/mesh3.cpp: serialize, from_proto"]}
{"id": "C33", "title": "ExteriorGrid indexes exactly the exterior cells", "statement": "cell_index and cell_coord are mutually inverse bijections between exterior cells and 0..num_cells-1; cell_index is -1 on every other coordinate.", "quantifier": "all masks/shapes", "why_tests_cant": "All masks.", "anchors": ["include/mandoline/exterior_grid_impl.hpp: constructor, cell_index, cell_coord"]}
{"id": "C34", "title": "ExteriorGrid boundary facets are exactly the exterior adjacencies", "statement": "Each axis-adjacent pair of exterior cells occurs exactly once as a facet (low, high) on that axis, and each exterior cell on the low/high domain side has exactly one facet with -2 on that side; nothing else is listed.", "quantifier": "all masks, all shapes", "why_tests_cant": "All masks and shapes including one-cell-thick grids.", "anchors": ["include/mandoline/exterior_grid_impl.hpp: make_boundary_pairs/constructor"]}
{"id": "C35", "title": "Domain boundary facet queries", "statement": "boundary_facets() returns the indices of facets with exactly one side outside the domain and interior_facets() the others; the masks built from them agree.", "quantifier": "all facet lists", "why_tests_cant": "Any facet list.", "anchors": ["src/domain_boundary.cpp: boundary_facets, interior_facets, boundary_face_mask"]}
{"id": "C36", "title": "Boundary operator of the exterior is a signed incidence matrix", "statement": "boundary triplets give, for each facet (a,b): -1 in column a and +1 in column b, so rows of interior facets sum to zero (constants are in the kernel) and with the domain boundary excluded every row sums to zero.", "quantifier": "all facet lists", "why_tests_cant": "All sizes.", "anchors": ["src/operators/boundary.cpp: boundary_triplets"]}
{"id": "C37", "title": "grid_boundary Dirichlet option removes exactly the domain-boundary fluxes", "statement": "grid_boundary(ni,nj,true) omits exactly the entries of faces on the four domain sides and keeps all others; without the flag each cell has four entries of alternating sign.", "quantifier": "all ni,nj", "why_tests_cant": "Only square grids are tested.", "anchors": ["src/diffgeo_utils.cpp: grid_boundary"]}
{"id": "C38", "title": "2D point location", "statement": "CutCellMesh<2>::cell_index(p) returns -2 outside the grid, the exterior index offset by the number of cut faces for points in exterior cells, and otherwise a cut face that contains p (or -1).", "quantifier": "all meshes and points", "why_tests_cant": "All points.", "anchors": ["src/mesh2.cpp: cell_index, in_cell"]}
{"id": "C39", "title": "Adaptive-grid point location", "statement": "get_cell_index(p) returns the cell whose half-open box contains p, -2 iff p is outside the grid and -1 iff p is inside but in no adaptive cell.", "quantifier": "all grids and points", "why_tests_cant": "All points incl. just outside the upper side.", "anchors": ["src/adaptive_grid.cpp: get_cell_index"]}
{"id": "C40", "title": "Region labelling = connected components not crossing the input mesh", "statement": "Two cells get the same region iff they are connected through faces that are not input-mesh faces; the region touching the domain boundary is 0; labels are contiguous.", "quantifier": "all cell/face incidences", "why_tests_cant": "Reachability.", "anchors": ["src/construction/generator3.cpp: bake_cells region part"]}
{"id": "C41", "title": "Signed cell volumes are consistent", "statement": "For cells whose every face is used once with each sign, cell volumes sum to zero; the volume of a closed triangulated cell is invariant under translation; reversing all signs negates it.", "quantifier": "all face sets, signs, positions", "why_tests_cant": "All polyhedra.", "anchors": ["src/cutcell.cpp: volume", "src/operators/volume3.cpp: cell_volumes", "include/mandoline/cutface_impl.hpp: brep_volume"]}
{"id": "C42", "title": "Cell moment", "statement": "CutCell::moment respects face orientation (the same cell described with opposite face orientations gives the same moment).", "quantifier": "all cells", "why_tests_cant": "Sign errors cancel in symmetric cells.", "anchors": ["src/cutcell.cpp: moment"]}
{"id": "C43", "title": "Trilinear interpolation matrix is a partition of unity reproducing linear functions", "statement": "Each row of trilinear_matrix sums to 1 with nonnegative weights and reproduces coordinates: applying it to a coordinate function of grid vertices gives that coordinate of the cut vertex.", "quantifier": "all normalised vertices", "why_tests_cant": "All reals.", "anchors": ["src/operators/interpolation3.cpp: trilinear_matrix", "src/operators/interpolation2.cpp: trilinear_matrix"]}
{"id": "C44", "title": "Interpolated edge weights", "statement": "sparse_matrix_entries gives each end vertex weights that sum to 1 and interpolate its parameter on the parent edge; zero weights are omitted; volume is |t1-t0| and for a subdivision of the parent edge the volumes sum to 1.", "quantifier": "all parameters / subdivisions", "why_tests_cant": "All reals.", "anchors": ["src/interpolated_edge.cpp"]}
{"id": "C45", "title": "Hodge stars are reciprocal", "statement": "In 2D and 3D the primal and dual Hodge star of codimension-one elements are reciprocal wherever both primal and dual volume exceed the cutoff 1e-5; each star is zero where its own denominator does not exceed the cutoff; both are nonnegative for nonnegative volumes. The top-degree stars are reciprocal where the cell volume is at least the cutoff in absolute value and the primal one is zero otherwise. No entry is non-finite.", "quantifier": "all volume vectors", "why_tests_cant": "All values.", "anchors": ["src/operators/volume3.cpp: dual_hodge2, primal_hodge2"]}
{"id": "C46", "title": "Deforming geometry constructor never emits a stale mesh", "statement": "After any sequence of update_vertices/update_topology/update_mesh/update_grid/set_adaptivity calls followed by bake, emit equals the result of a fresh constructor with the latest inputs.", "quantifier": "all call histories", "why_tests_cant": "Histories.", "anchors": ["src/construction/construct.cpp"]}
{"id": "C47", "title": "Piecewise-linear curve files round trip", "statement": "read_plcurve(write_plcurve(V,E)) returns V and E.", "quantifier": "all curves", "why_tests_cant": "Parser state machine over all files.", "anchors": ["src/tools/plcurve_io.cpp"]}
{"id": "C48", "title": "Exploded mesh connectivity", "statement": "MeshExploder: face indices of the concatenated mesh refer to the translated vertices of their own cell; at scale 1 vertices are unmoved; disabled regions contribute nothing.", "quantifier": "all cell lists and region subsets", "why_tests_cant": "All sizes.", "anchors": ["src/tools/exploded_mesh.cpp: offsets, F, V"]}
{"id": "C49", "title": "Active grid cell mask", "statement": "After baking, a grid cell is left to the exterior grid iff it is inside the grid and no crossing (input vertex, edge or triangle intersection) lies in its closed unit cube; crossings outside the grid never touch the mask; the grid edges that get subdivided are exactly those carrying a crossing and those of the cut cells; the result does not depend on how the per-axis tasks of the parallel loop interleave.", "quantifier": "all grids, all crossing sets, all interleavings of the parallel writes", "why_tests_cant": "The set of crossing positions and of thread interleavings is infinite.", "anchors": ["include/mandoline/construction/generator_impl.hpp: bake_active_grid_cell_mask, active_cells"]}
{"id": "C50", "title": "External boundary classification of cut faces", "statement": "A cut face lying on exactly one grid plane and fitting in a grid cell gets external boundary -2 on or beyond the domain boundary; between two grid cells it gets the index of the uncut one when it is a single quadrilateral and exactly one of the two is uncut, and nothing otherwise; its sign is the opposite of the cut cell's. A 2D cut edge gets the uncut neighbour likewise, with a sign that says whether that cell is on the left of the edge. Faces on no plane, several planes, or in no single cell get none.", "quantifier": "all grids, masks and faces/edges", "why_tests_cant": "All.", "anchors": ["src/construction/generator3_make_faces.cpp: compute_faces"]}
{"id": "C51", "title": "Grid boundary face masks", "statement": "grid_boundary_mask flags exactly the faces lying on the first or last grid plane of their axis.", "quantifier": "all faces, shapes", "why_tests_cant": "All.", "anchors": ["src/operators/masks.cpp: grid_boundary_mask", "src/operators/boundary3.cpp: grid_boundary_faces"]}
{"id": "C52", "title": "FaceCollapser sorts neighbours by angle and turns to the clockwise-next edge", "statement": "The comparator used to sort the neighbours of a vertex is the counter-clockwise angle order (a strict weak order whose ties are exactly equal directions) as long as no neighbour coincides with the vertex, and arriving at a along b->a the boundary walk continues along the neighbour reached first when turning clockwise from b, so each face lies on the left of its loop.", "quantifier": "all edge sets and all positions without coincident neighbours or equal directions; all sorts allowed by std::sort", "why_tests_cant": "The order must be consistent for every triple of directions in every quadrant combination; std::sort is undefined behaviour otherwise.", "anchors": ["include/mandoline/construction/face_collapser.hpp: unify_boundary_loops (comp, quadrants)"]}
{"id": "C53", "title": "Cleaning a face boundary keeps only its own edges", "statement": "The loops that CellCollapser keeps for a face consist of edges of that face's input loops; faces whose loops are simple and use no edge twice are kept unchanged.", "quantifier": "all families of faces and loops", "why_tests_cant": "whether another face's spur cuts this face's loop depends on the whole family of faces and the iteration order; tests only see a few families", "anchors": ["src/construction/cell_collapser.cpp: clean_unmanifold, CellCollapser constructor"]}
{"id": "C54", "title": "Adaptive face areas", "statement": "face_volumes()[i] of an adaptive grid is the area of face i: width squared times the grid spacings of the two axes orthogonal to the face's axis.", "quantifier": "all spacings, faces", "why_tests_cant": "isotropic spacings hide which two spacings are multiplied; must hold for every dx and face", "anchors": ["src/adaptive_grid.cpp: face_volumes"]}
{"id": "C55", "title": "Square used by boundary_centroids and grid_face_projection is the face's square", "statement": "For every interior face between two aligned power-of-two cells the axis, width and low corner recomputed from the two cells are those of the face.", "quantifier": "all disjoint dyadic cell families and their faces", "why_tests_cant": "depends on which of the two cells is narrower, for every pair", "anchors": ["src/adaptive_grid.cpp: boundary_centroids, grid_face_projection"]}
{"id": "C56", "title": "Boundary operator of the generated adaptive grid", "statement": "After generation (cells renumbered after the cut cells, faces kept), the adaptive boundary triplets have -1 at the column of the lower cell and +1 at that of the upper cell of every face (domain faces only on request), and nothing else.", "quantifier": "all disjoint cell families with corner-index ids, offsets, first new id", "why_tests_cant": "ids pass through a lookup in the ownership grid; must hold for every cell family", "anchors": ["src/operators/boundary3.cpp: boundary_triplets(AdaptiveGrid)", "src/construction/generator3.cpp: bake_cells"]}
{"id": "C57", "title": "Dual edges name cells consistently", "statement": "For every interior adaptive face, the entries of its dual edge are the ids of its two cells, both on the generated mesh and on a reloaded one, so dual_edge_lengths, masks and boundary operators agree.", "quantifier": "all generated and reloaded adaptive grids", "why_tests_cant": "two id spaces coincide on small examples", "anchors": ["src/adaptive_grid.cpp: dual_edge_lengths, is_valid_edge", "src/mesh3.cpp: from_proto", "src/construction/generator3.cpp: bake_cells"]}
{"id": "C58", "title": "Adaptive cell volumes add up to the uncut volume", "statement": "The adaptive cell volumes sum to the number of inactive unit cells times the unit cell volume.", "quantifier": "all masks, levels and spacings", "why_tests_cant": "needs disjointness and coverage for every mask", "anchors": ["src/adaptive_grid.cpp: cell_volumes", "src/construction/adaptive_grid_factory.cpp: make_cells"]}
{"id": "C59", "title": "Exterior facets map to distinct grid faces", "statement": "boundary_facet_to_staggered_grid gives each exterior facet exactly one grid face: the face shared by its two cells, the low-side face of its cell for a facet on the low side of the domain, and the high-side face for a facet on the high side. Two different facets never map to the same grid face.", "quantifier": "every dimension, grid shape, exterior mask and row offset", "why_tests_cant": "the claim ranges over all shapes and masks; a collision needs two particular facets", "anchors": ["include/mandoline/exterior_grid_impl.hpp: ExteriorGrid::boundary_facet_to_staggered_grid, make_facets"]}
{"id": "C60", "title": "Face masks name exactly the grid planes of a face", "statement": "update_mask leaves on a face exactly those grid planes (axis, coordinate) that contain every vertex of the face, where vertex indices below the number of grid vertices are grid vertices in index order and the rest are cut vertices.", "quantifier": "every dimension, grid shape, normalised vertex list and non-empty face with valid vertex indices", "why_tests_cant": "all faces, any number of loops and vertices", "anchors": ["include/mandoline/cutface_impl.hpp: CutFaceBase::update_mask", "include/mandoline/mesh_impl.hpp: masked_vertex"]}
{"id": "C61", "title": "Edge fractions of a staggered grid", "statement": "grid_edgeratio(ni,nj,phi) sets every entry of its result: the entry of each face is fraction_inside of phi at the two end points of that face, and phi is read only inside its (ni+1)(nj+1) entries.", "quantifier": "all ni, nj >= 0 and level sets phi", "why_tests_cant": "Index arithmetic must be right for every grid shape; square grids hide swaps.", "anchors": ["src/diffgeo_utils.cpp: grid_edgeratio"]}
{"id": "C62", "title": "2D in_cell agrees with point location", "statement": "CutCellMesh<2>::in_cell(p, idx) is true exactly when idx is the cell that contains p: for a cut face iff p is inside its polygon (outer loop minus holes), for an exterior cell iff p is in that grid cell; in particular in_cell(p, cell_index(p)) holds whenever cell_index(p) >= 0, and in_cell is false for other exterior cells and for indices that are not cells.", "quantifier": "all meshes, points and indices", "why_tests_cant": "All points and indices, including out-of-range ones.", "anchors": ["src/mesh2.cpp: in_cell, cell_index"]}
{"id": "C63", "title": "2D exterior cell loops", "statement": "CutCellMesh<2>::cell(i) of an exterior cell is one closed loop through the four world-space corners of its grid cell, each once, in counterclockwise order like the outer loops of cut faces; an index past the last cell gives an empty loop set.", "quantifier": "all meshes and cell indices", "why_tests_cant": "Index arithmetic over all grid shapes.", "anchors": ["src/mesh2.cpp: cell"]}
{"id": "C64", "title": "2D boundary operator", "statement": "boundary(CutCellMesh<2>) has exactly one nonzero, +-1 with the orientation of the edge in the face, for each incident (edge, cell) pair, with cut edges first and exterior facets shifted by the number of cut edges; entries of domain-boundary edges appear only on request. Its laplacian is symmetric, positive semidefinite for nonnegative weights, and annihilates constants when each interior edge has two oppositely oriented sides.", "quantifier": "all 2D meshes with valid indices", "why_tests_cant": "All meshes; algebraic identity over all vectors.", "anchors": ["src/operators/boundary2.cpp: boundary", "src/operators/diffgeo2.cpp: laplacian", "src/mesh2.cpp"]}
{"id": "C65", "title": "2D edge and dual edge lengths", "statement": "edge_lengths(CutCellMesh<2>) gives the Euclidean length of each edge, dual_edge_lengths the distance between the two cell centres across it, both nonnegative; hence for exterior facets hodge1 is primal over dual length.", "quantifier": "all meshes and grid spacings", "why_tests_cant": "Square grids hide an axis swap; all spacings matter.", "anchors": ["src/operators/volume2.cpp: edge_lengths, dual_edge_lengths", "include/mandoline/exterior_grid.hpp: boundary_facet_volumes, dual_edge_lengths"]}
{"id": "C66", "title": "Coordinate mask constructors and queries", "statement": "A mask built from (axis, value) binds exactly that plane; one built from a coordinate binds every axis; bound_axis/unbound_axis return the lowest bound/unbound axis or -1; all, active and count agree with the set of bound axes and as_array inverts the coordinate constructor.", "quantifier": "all dimensions and masks", "why_tests_cant": "All masks and dimensions.", "anchors": ["include/mandoline/coord_mask.hpp"]}
{"id": "C67", "title": "Clamping to a mask", "statement": "Clamping a coordinate or a vertex to a mask gives the plane values on bound axes and leaves the others unchanged; a vertex clamped to a mask lies on every plane of the mask.", "quantifier": "all masks, coordinates and vertices", "why_tests_cant": "All masks and vertices.", "anchors": ["include/mandoline/coord_mask.hpp: clamp", "include/mandoline/vertex.hpp"]}
{"id": "C68", "title": "Vertex flags and mask agree", "statement": "For a vertex whose clamped flags are exact, optional_index() equals mask() and binds axis i to x exactly when coordinate i of p() is the integer x; is_grid_vertex() holds exactly when p() is an integer point.", "quantifier": "all vertices", "why_tests_cant": "All vertices and dimensions.", "anchors": ["include/mandoline/vertex_impl.hpp: optional_index, mask, is_grid_vertex"]}
{"id": "C69", "title": "barycentric_matrix reproduces mesh positions", "statement": "Every row of barycentric_matrix (2D and 3D) sums to 1, or is zero when nothing is recorded for it; and if all mesh pieces meeting at a cut vertex place it at the same combination of input vertices, its row is exactly that combination, so the matrix maps input vertex positions (and any linear function) to the cut vertex.", "quantifier": "all sets of mesh pieces and all data vectors", "why_tests_cant": "Overlapping entries from any number of pieces in any order.", "anchors": ["src/operators/interpolation2.cpp: barycentric_matrix", "src/operators/interpolation3.cpp: barycentric_matrix", "src/barycentric_triangle_face.cpp", "src/interpolated_edge.cpp"]}
{"id": "C70", "title": "Mesh pieces account for the whole triangle", "statement": "Each column of face_barycentric_volume_matrix whose cut faces tile the input triangle with consistent orientation sums to 1.", "quantifier": "all tilings of a triangle by polygons", "why_tests_cant": "Arbitrarily many polygons of arbitrary shape.", "anchors": ["src/operators/interpolation3.cpp: face_barycentric_volume_matrix", "src/barycentric_triangle_face.cpp: volume"]}
{"id": "C71", "title": "2D face_grid_volume_matrix", "statement": "Row f of a cut face holds its volume fraction at the grid cell that owns it and nothing else, row of an exterior cell holds 1 at its grid cell; columns sum to 1 when the cut faces of each non-exterior cell fill it.", "quantifier": "all 2D meshes and volumes", "why_tests_cant": "All meshes.", "anchors": ["src/operators/interpolation2.cpp: face_grid_volume_matrix"]}
{"id": "C72", "title": "Grid face to cut face volume fractions", "statement": "The entry of an axis-aligned cut element in edge_grid_volume_matrix (2D) / face_grid_volume_matrix (3D) is plus or minus the fraction of the grid edge / face it covers, at the column of the grid element with the componentwise minimum corner of its vertices.", "quantifier": "all meshes, spacings and cut elements", "why_tests_cant": "Unit spacings hide a wrong normalisation.", "anchors": ["src/operators/interpolation2.cpp: edge_grid_volume_matrix", "src/operators/interpolation3.cpp: face_grid_volume_matrix"]}
{"id": "C73", "title": "3D boundary operator", "statement": "operators::boundary(CutCellMesh<3>) has one row per cut face then exterior face and one column per cut cell then exterior cell; each coefficient is the signed incidence (orientation flag for cut cells, the external boundary's owner for cut faces next to an uncut cell, lower/upper cell for exterior faces); without the domain boundary all rows sum to zero, so constants are in the kernel of B^T H B.", "quantifier": "all generated meshes, both values of include_domain_boundary, all diagonal Hodge stars", "why_tests_cant": "Every face/cell pair of every mesh; conservation is a statement about all rows.", "anchors": ["src/operators/boundary3.cpp: boundary, boundary_triplets", "src/construction/generator3.cpp: bake_cells"]}
{"id": "C74", "title": "Edge-grid crossings are complete, ordered and on the grid", "statement": "After baking an input edge against a grid, its recorded crossings all have a parameter strictly between 0 and 1, carry the edge's index, lie exactly on a grid plane that the edge crosses and (in every coordinate) within the snapping distance of the point of the segment at that parameter; every grid plane strictly between the end points is represented; the crossings are strictly ordered by parameter and no two are at the same place; a plane that contains the whole edge contains all its crossings. Away from the snapping distance the parameters are exactly the crossing parameters.", "quantifier": "all pairs of input vertices in any dimension, all grids", "why_tests_cant": "The number and arrangement of crossed planes is unbounded and the merging/snapping cases (corners, shared planes, reflected axes) interact.", "anchors": ["include/mandoline/construction/facet_intersections_impl.hpp:EdgeIntersections::bake", "include/mandoline/construction/facet_intersections.hpp:EdgeIntersections"]}
{"id": "C75", "title": "Every sub-edge lies in one closed grid cell", "statement": "The list of vertices along a baked edge starts at one end point, contains all the crossings in order and ends at the other end point, and no grid plane lies strictly between two consecutive entries in any axis, so each sub-edge lies in one closed grid cell, even after snapping.", "quantifier": "all pairs of input vertices in any dimension, all grids (any snapping threshold)", "why_tests_cant": "Crossings are dropped when they snap to the same place; that no sub-edge then jumps over a plane is a property of every configuration.", "anchors": ["include/mandoline/construction/facet_intersections.hpp:gvertices", "include/mandoline/construction/facet_intersections.hpp:vptr_edges"]}
{"id": "C76", "title": "Cut edges of an input edge form a path, whatever the schedule", "statement": "The cut edges recorded for an input edge join consecutive points of that edge, carry its index and exactly the planes common to its two end points, and connect the index of its first end point to that of its last; the parallel loop records the same cut edges with the same multiplicities under every schedule. No cut edge is degenerate.", "quantifier": "all input edges, vertex indexings and thread schedules", "why_tests_cant": "The loop is parallel: the order of the recorded edges depends on the schedule.", "anchors": ["include/mandoline/construction/cutdata_impl.hpp:CutData::bake", "include/mandoline/construction/facet_intersections.hpp:IntersectionsBase::edges"]}
{"id": "C77", "title": "Edge parameters of points", "statement": "The vertex made from parameter t of an edge is the point a + t(b-a); asking for the parameter of a point of a non-degenerate edge returns t; asking for the parameter of a crossing on an edge returns the parameter of that point on the edge asked for; is_cut() tells whether the edge has crossings.", "quantifier": "all edges, parameters and crossings", "why_tests_cant": "Must hold for every edge and every crossing, including those found on another edge.", "anchors": ["include/mandoline/construction/facet_intersections.hpp:from_coord", "include/mandoline/construction/facet_intersections.hpp:get_coord", "include/mandoline/construction/cutdata_impl.hpp:get_edge_coord", "include/mandoline/construction/facet_intersections.hpp:is_cut"]}
{"id": "C78", "title": "Boundary loop of a cut triangle", "statement": "The boundary loop of a baked triangle is one closed walk around the triangle against its orientation (from vertex 2 to 1 to 0 and back to 2) that visits every crossing of each of the three edges in order, whatever the order and direction in which the edges are stored; its steps are exactly the steps between consecutive points of the three edges. The edge used to recognise the outer face is a step of this walk.", "quantifier": "all triangles, edge orders and edge orientations, all grids", "why_tests_cant": "All combinations of edge order, direction and number of crossings.", "anchors": ["include/mandoline/construction/facet_intersections_impl.hpp:boundary_vptr_loop", "include/mandoline/construction/facet_intersections_impl.hpp:boundary_vptr_edge"]}
{"id": "C79", "title": "Barycentric coordinates of the points of a cut triangle", "statement": "The barycentric coordinates recorded for the vertices, edge crossings and interior crossings of a triangle are non-negative and sum to one, and name the recorded point up to the snapping distance. The clamping step turns any triple with sum one into valid coordinates and leaves valid ones unchanged.", "quantifier": "all triangles, grids and crossings", "why_tests_cant": "Needs every crossing of every triangle; the clamping code has many sign cases.", "anchors": ["include/mandoline/construction/facet_intersections_impl.hpp:TriangleIntersections::bake", "include/mandoline/construction/facet_intersections.hpp:barycentric_coords", "include/mandoline/construction/facet_intersections.hpp:edge_bary"]}
{"id": "C80", "title": "A grid plane cuts a segment out of a triangle exactly if it separates its vertices", "statement": "Baking a triangle creates a segment for a grid plane if and only if the plane passes strictly between two of the triangle's vertices; the segment's ends are boundary points of the triangle on that plane, all its crossings are on that plane, and each of its pieces lies in one closed grid cell.", "quantifier": "all triangles, grids, axes and planes", "why_tests_cant": "Snapping may move further crossings onto the plane; all configurations matter.", "anchors": ["include/mandoline/construction/facet_intersections_impl.hpp:TriangleIntersections::bake"]}
{"id": "C81", "title": "Crossings inside a triangle are grouped without loss", "statement": "The crossings of the segments inside a triangle are grouped so that every one is represented by exactly one triangle intersection, the group's mask is that of a member and contains the planes of all members, and the mean barycentric coordinates are valid.", "quantifier": "all sets of crossings, any dimension", "why_tests_cant": "The level-by-level merge has unbounded numbers of groups and absorptions.", "anchors": ["include/mandoline/construction/facet_intersections_impl.hpp:convex_grid_condensation"]}
{"id": "C82", "title": "Point location in a 3D cut-cell mesh", "statement": "For a mesh whose exterior cells are disjoint boxes, get_cell_index(p) returns the index of the exterior cell that contains p, otherwise the least cut cell of p's grid cell whose boundary encloses p (signed solid angle above one half), otherwise -1 (or -2 for a point outside the grid); is_cut_cell / is_exterior_cell classify the result, and cells_by_grid_cell lists exactly the cut cells of each grid cell.", "quantifier": "all meshes, points and solid-angle functions", "why_tests_cant": "the classification must hold for every point and arrangement of cells, including points on shared boundaries and outside the grid", "anchors": ["src/mesh3.cpp: CutCellMesh<3>::get_cell_index, cells_by_grid_cell, cells_in_grid_cell, is_cut_cell, is_exterior_cell", "include/mandoline/cutcell.hpp: contains, solid_angle"]}
{"id": "C83", "title": "Vertex positions of a mesh", "statement": "vertices() lists the grid vertices in index order followed by the cut vertices; column i is vertex(i), the world position origin + dx * (coord + quot); grid_space_vertices() gives the same points in grid coordinates.", "quantifier": "all meshes and vertex indices", "why_tests_cant": "indices of faces and cells refer to these columns; an off-by-one or a mixed coordinate system shows only on some grids", "anchors": ["include/mandoline/mesh_impl.hpp: vertices, vertex, get_world_vertex, grid_space_vertices, cut_vertices_colvecs"]}
{"id": "C84", "title": "Region labels of cells and faces", "statement": "regions() gives every cell its label (stored label for exterior cells, own label for cut cells, 1 as default) and is defined exactly if all stored exterior labels refer to existing cells; regions(true) classifies by the majority sign of input-mesh faces; face_regions()[r] holds on each side exactly the input-mesh faces that a cell labelled r has with that sign, orig_face_regions() their parent triangles.", "quantifier": "all meshes and region maps", "why_tests_cant": "must hold for all label assignments and all cell/face incidences", "anchors": ["src/mesh3.cpp: regions, face_regions, orig_face_regions"]}
{"id": "C85", "title": "Region centroids", "statement": "region_centroids() returns, for every region bounded by input triangles, the centre of mass of the region.", "quantifier": "all regions whose triangles bound a solid glued from tetrahedra", "why_tests_cant": "a wrong constant factor cancels for solids centred at the origin; the claim ranges over all solids", "anchors": ["src/mesh3.cpp: CutCellMesh<3>::region_centroids"]}
{"id": "C86", "title": "Active cells of a 3D mesh", "statement": "If every cut cell's vertices lie in the closure of its grid cell and not all on an upper side, active_cells() is the set of the grid cells of the cut cells, active_cell_count() their number, and active_cell_mask() is false exactly there.", "quantifier": "all meshes with cut cells inside their grid cells", "why_tests_cant": "the code recovers the grid cell from a centroid; that the rounding always hits the right cell is a claim about all cells", "anchors": ["src/mesh3.cpp: active_cells, active_cell_mask, active_cell_count", "src/mesh3.cpp: cell_centroids"]}
{"id": "C87", "title": "Triangulations of a cell", "statement": "The triangles returned for a cell, looked up in the mesh's vertices followed by the additional vertices, are exactly the triangles of its faces with the orientation the cell gives them; use_base and use_flap split them.", "quantifier": "all cells and cached face triangulations, with or without own vertices", "why_tests_cant": "index offsets are wrong only if several faces bring their own vertices, orientation only for negative sides", "anchors": ["src/mesh3.cpp: triangulated_cell, compact_triangulated_cell", "src/cutcell.cpp: CutCell::triangulated, triangulated_with_additional_vertices"]}
{"id": "C88", "title": "CutCell::get_mesh and CutCell::centroid", "statement": "get_mesh returns the cell's boundary as a consistently oriented triangle mesh and centroid returns a point of the cell's convex hull that does not depend on turning all sides around.", "quantifier": "all cells", "why_tests_cant": "orientation errors cancel for cells with only positive sides, the missing normalisation for cells of special volume", "anchors": ["include/mandoline/cutcell.hpp: CutCell::centroid, CutCell::get_mesh"]}
{"id": "C89", "title": "Input vertices are snapped by at most the threshold", "statement": "update_vertices(V, t) stores one grid-space vertex per input vertex, in order; converting back to world space returns the input position exactly where the vertex is at least t cells away from all grid planes of an axis, and otherwise a position on a grid plane less than 2t cells away, marked as lying on it; without snapping the round trip is exact in both directions.", "quantifier": "all grids with positive spacing, points and thresholds up to 1/2", "why_tests_cant": "ranges over all real positions and grids; the boundary cases are measure zero", "anchors": ["include/mandoline/construction/generator.hpp: get_vertex, get_world_vertex", "include/mandoline/construction/generator_impl.hpp: update_vertices", "include/mandoline/vertex_impl.hpp: apply_thresholding"]}
{"id": "C90", "title": "Surface adjacency of a planar curve", "statement": "For every two-dimensional cut mesh the surface adjacency is computed in finitely many steps and gives each vertex of a mesh edge the first and the last mesh edge at it (the second slot is empty at an open end); on a curve, where every vertex has at most two mesh edges, these are all of them. It should also be oriented: each mesh edge enters one of its ends and leaves the other; and keep all edges where three or more meet.", "quantifier": "for every list of cut edges and every vertex", "why_tests_cant": "holds for every edge list and every order of edges", "anchors": ["src/operators/diffgeo2.cpp surface_adjacency", "include/mandoline/operators/diffgeo2.hpp"]}
{"id": "C91", "title": "Surface differential operators in two dimensions", "statement": "The surface Laplacian of the cut curve is, at each mesh edge, the sum over its two ends of the dual length times the difference with the next edge; it is symmetric and positive semidefinite, and on a closed curve constants are in its kernel and the divergence conserves the total. Every vertex carries half the length of its edges as dual length, and these add up to the length of the curve. The divergence of a constant flow along a closed curve should vanish.", "quantifier": "for every cut curve, every edge and every value of the unknowns", "why_tests_cant": "algebraic identities for all meshes and all right-hand sides", "anchors": ["src/operators/diffgeo2.cpp surface_boundary, surface_divergence, surface_laplacian, surface_dual_lengths"]}
{"id": "C92", "title": "Distances to a line segment", "statement": "The projection of a point to a line segment lies on the segment and no point of the segment is nearer; the distance is zero exactly on the segment, where projecting changes nothing; interpolation runs from start to end, and translating, scaling, and component-wise multiplying or dividing a line does the same to each of its points.", "quantifier": "for every segment, in any dimension, and every point", "why_tests_cant": "minimality ranges over the continuum of points on the segment", "anchors": ["include/mandoline/line.hpp", "include/mandoline/line_impl.hpp"]}
{"id": "C93", "title": "Reusing a CutData or a slicer", "statement": "Whatever has been done to a CutData before (vertices moved, topology replaced, baked any number of times), clearing it, or moving its vertices with update_vertices, leaves exactly the object that the constructor would build from the current vertices, edges and triangles, so baking then gives the same result as on a fresh object; update_vertices with another number of vertices is rejected. A slicer gives for a plane the same result whatever slices and vertex updates came before. Baking twice without clearing, or replacing the topology without clearing, leaves old cut edges and faces in the result; set_vertices after the topology is set makes every later operation on it invalid; the fuse flag of bake and add_edge_isect have no effect.", "quantifier": "for every sequence of public operations and every slice history", "why_tests_cant": "quantifies over all operation histories", "anchors": ["include/mandoline/construction/cutdata_impl.hpp", "include/mandoline/construction/facet_intersections.hpp", "src/tools/planar_slicer.cpp"]}
{"id": "C94", "title": "Planar slicer", "statement": "The transform of the slicing plane sends exactly the points of the plane through the given origin with the given normal to z = 0; the grid used for slicing has z = 0 as its middle plane and contains the transformed mesh; every face that is kept lies on the chosen side; transforming back returns the input vertices to their place and every new vertex to its place on the mesh.", "quantifier": "for every mesh, origin and direction", "why_tests_cant": "ranges over all planes and meshes", "anchors": ["src/tools/planar_slicer.cpp", "include/mandoline/tools/planar_slicer.hpp"]}
{"id": "C95", "title": "Triangulating faces with several loops", "statement": "For a grid-aligned cut face with several loops the triangulation library is handed every vertex of the face exactly once and exactly the sides of the loops; if it adds no points, the triangulation consists of the library's triangles whose centre the loops wind around (all of them if there is none), at the same positions, using only vertices of the face.", "quantifier": "for all faces, vertex positions, library results without added points and winding number functions", "why_tests_cant": "ranges over all polygons with holes and all results of an external library", "anchors": ["src/cutface3.cpp:63-193"]}
{"id": "C96", "title": "Fan triangulation of mesh faces", "statement": "A cut face of the input mesh with n vertices is triangulated into n-2 triangles on its own vertices; with orientation their sides cancel except for the sides of the face, so vector area and signed volume are those of the face, and caching the triangulation does not change the solid angle computation.", "quantifier": "for all loops and vertex positions", "why_tests_cant": "ranges over all polygons", "anchors": ["src/cutface3.cpp:50-57", "include/mandoline/cutface.hpp:149-178", "include/mandoline/cutface_impl.hpp:126-152"]}
{"id": "C97", "title": "Vertices added by a triangulation", "statement": "If the triangulation of a face adds vertices, they are returned at their world positions in the plane of the face and the triangles looked up in the mesh's vertices followed by the added ones are the library's triangles; if adding was not allowed, the result is empty.", "quantifier": "for all faces, grids and library results", "why_tests_cant": "ranges over all grids and all results of an external library", "anchors": ["src/cutface3.cpp:105-193", "src/mesh3.cpp:421-430", "src/mesh3.cpp:598-618"]}
{"id": "C98", "title": "Caching triangulations", "statement": "triangulate_faces gives every face its own triangulation whatever the order in which the parallel loop runs, changes nothing else, is idempotent, and its result does not depend on earlier calls.", "quantifier": "for all meshes, loop schedules and call histories", "why_tests_cant": "ranges over all schedules and histories", "anchors": ["src/mesh3.cpp:432-441", "src/cutface3.cpp:7-21"]}
{"id": "C99", "title": "Boundary of the uncut part of a slice", "statement": "The boundary edges of a planar slice are exactly the grid edges with a cut cell on exactly one side (in adaptive mode: exactly the edges both of whose ends lie on a common side of the domain); they form closed curves (every vertex meets an even number), and after translation to the volume a loop is recognised as a boundary cell exactly if all its edges are boundary edges.", "quantifier": "for all grid shapes, cell masks, edge sets and loops", "why_tests_cant": "ranges over all masks of all grid sizes", "anchors": ["src/construction/generator.cpp:64-228 compute_planar_hem", "src/construction/generator3_make_faces.cpp:24-33 is_boundary_cell", "src/construction/generator3_make_faces.cpp:226-239"]}
{"id": "C100", "title": "Which loops of a slice are tied together", "statement": "The grid cells recorded for a loop of a slice are the cells whose closed square contains all of its vertices, and two different loops are handed over for tying (outer boundary and holes) exactly if some grid cell contains them both.", "quantifier": "for all half-edge meshes and all vertex positions", "why_tests_cant": "ranges over all arrangements of loops in cells", "anchors": ["src/construction/generator.cpp:120-195 compute_planar_hem"]}
{"id": "C101", "title": "Face numbers of slices do not clash", "statement": "The faces made from the axis-aligned slices get numbers that differ from those of the input-mesh faces and from each other, so that every face of the input and of every slice is kept under its own number.", "quantifier": "for all numbers of input faces and all sequences of slices", "why_tests_cant": "ranges over all sequences of slices, including slices without cells", "anchors": ["src/construction/generator3_make_faces.cpp:245-252 bake_faces", "src/construction/generator3_make_faces.cpp:387-400 compute_faces"]}
{"id": "C102", "title": "Which loops of a slice become faces", "statement": "The faces made from a slice hold exactly the loops with at least three vertices and non-negative area that are not boundary loops of uncut cells and are not input faces lying in the slice; an input face lying in a slice is not duplicated.", "quantifier": "for all slices, loops and axis-aligned input faces", "why_tests_cant": "ranges over all loop arrangements and orientations", "anchors": ["src/construction/generator3_make_faces.cpp:44-72 bake_faces", "src/construction/generator3_make_faces.cpp:361-497 compute_faces_vertex, compute_faces_axis"]}
{"id": "C103", "title": "Renumbering in the generated mesh", "statement": "The faces of the generated mesh are the generator's faces in order, and cells, axial face sets, barycentric maps and folded-face sets refer to the same faces after renumbering.", "quantifier": "for all generator states", "why_tests_cant": "ranges over all sparse face numberings", "anchors": ["src/construction/generator3.cpp:33-158 generate"]}
{"id": "C104", "title": "Grid cell of a cut cell", "statement": "The grid cell recorded for a cut cell of the generated mesh is the grid cell that contains the cut cell's faces.", "quantifier": "for all generator states", "why_tests_cant": "ranges over all cells and face sets, including folded faces", "anchors": ["src/construction/generator3.cpp:100-150 generate", "include/mandoline/construction/generator_impl.hpp:994-1012 possible_cells_cell"]}
{"id": "C105", "title": "2D cut faces and the grid cell each belongs to", "statement": "Generating a 2D cut-cell mesh keeps exactly the loops of positive signed area whose cell is cut by the input; each kept face lies in one closed grid cell, which is the cell recorded for it, and the ownership table lists under each cell exactly the faces lying in it. An enclosed region of uncut cells is left to the exterior grid and not also kept as a cut face.", "quantifier": "for all grid shapes, active masks, vertex positions and face loops", "why_tests_cant": "ranges over all arrangements of loops in all grids", "anchors": ["src/construction/generator2.cpp:184-254 CutCellEdgeGenerator<2>::generate_faces"]}
{"id": "C106", "title": "Signed edge boundary of 2D cut faces", "statement": "The boundary map of a 2D cut-cell mesh lists for every cut face exactly the cut edges on its loops, with sign +1 where the face runs along the edge and -1 where it runs against it; the signed boundary is closed (sums to zero at every vertex), and two faces sharing an edge mention it with opposite signs.", "quantifier": "for all sets of cut edges and cut faces", "why_tests_cant": "ranges over all planar arrangements", "anchors": ["src/construction/generator2.cpp:255-327 CutCellEdgeGenerator<2>::generate_faces"]}
{"id": "C107", "title": "Region labels of a 2D cut-cell mesh", "statement": "After generation every cell of a 2D mesh (cut face or exterior cell) has exactly one region label; two cells have the same label exactly if they are linked by cells touching through edges that are not input edges; labels are given without gaps in cell order, do not depend on the union-find structure, and label 0 is the outside (a region at the side of the domain). Input edges separate the regions on their two sides.", "quantifier": "for all 2D meshes and all union-find linking policies", "why_tests_cant": "ranges over all meshes and linking orders", "anchors": ["src/construction/generator2.cpp:330-428 CutCellGenerator<2>::extra_metadata", "src/mesh2.cpp:62-71 CutCellMesh<2>::regions"]}
{"id": "C108", "title": "Face areas of a 3D cut-cell mesh", "statement": "operators::face_volumes(ccm) has face_size entries, none negative: a cut face on a grid plane gets the length of its vector area (half the sum of p x q over the sides of its loops), a piece of an input triangle its share of the triangle's area (the pieces of a triangle add up to it), an exterior face of width w its w^2 grid squares; with from_triangulation a cut face gets the sum of the areas of its cached triangles.", "quantifier": "all meshes, all faces", "why_tests_cant": "Every face of every mesh, including meshes whose input triangles were not kept.", "anchors": ["src/operators/volume3.cpp: face_volumes", "src/operators/interpolation3.cpp: face_barycentric_volume_matrix", "src/adaptive_grid.cpp: AdaptiveGrid::face_volumes"]}
{"id": "C109", "title": "Dual edge lengths of a 3D cut-cell mesh", "statement": "operators::dual_edge_lengths(ccm): a grid-plane face between cut cells has the grid spacing of its axis; a face next to an uncut cell has the distance between the centre of the cut cell's grid cell and the centre of the exterior cube; pieces of the input mesh and domain boundary faces have 0; exterior faces have the distance of the two cube centres.", "quantifier": "all generated meshes, all faces, all norms that agree with |.| on the axes", "why_tests_cant": "Uninitialised entries look right in most runs; must hold for all meshes.", "anchors": ["src/operators/volume3.cpp: dual_edge_lengths", "src/adaptive_grid.cpp: AdaptiveGrid::dual_edge_lengths"]}
{"id": "C110", "title": "Face Hodge stars of a 3D cut-cell mesh", "statement": "dual_hodge2 is area over dual length where the length exceeds 1e-5 and 0 elsewhere, primal_hodge2 the other way round; they are reciprocal where both exceed 1e-5; faces of the input mesh have weight 0; every entry is determined by the mesh.", "quantifier": "all meshes, all faces", "why_tests_cant": "Entry by entry over every mesh, including entries computed from never-written memory.", "anchors": ["src/operators/volume3.cpp: dual_hodge2, primal_hodge2"]}
{"id": "C111", "title": "Divergence and Laplacian of a 3D cut-cell mesh", "statement": "operators::divergence(ccm) maps fluxes on faces to cells, operators::laplacian(ccm) maps cells to cells; both are defined for every mesh.", "quantifier": "all meshes", "why_tests_cant": "Matrix sizes depend on the mesh; a mesh whose numbers of faces and cells agree hides the mismatch.", "anchors": ["src/operators/diffgeo3.cpp: divergence, laplacian"]}
{"id": "C112", "title": "Cell volumes of a 3D cut-cell mesh", "statement": "operators::cell_volumes(ccm) has one entry per cell at the cell's index: the signed volume of each cut cell, then dx dy dz w^3 for the exterior cube with that id; the exterior entries add up to the uncut volume; primal_hodge3 is the reciprocal, 0 where the volume is below 1e-5.", "quantifier": "all generated meshes, all cells", "why_tests_cant": "Every cell of every mesh; the exterior ids are renumbered after the cut cells.", "anchors": ["src/operators/volume3.cpp: cell_volumes, dual_hodge3, primal_hodge3", "src/adaptive_grid.cpp: AdaptiveGrid::cell_volumes"]}
{"id": "C113", "title": "barycentric_map transfers vertex data to the cut vertices", "statement": "CutData::barycentric_map() is a (number of grid and cut vertices) x (number of mesh vertices) matrix whose row i interpolates a function on the mesh vertices at cut vertex i: rows have non-negative weights that sum to 1, and applied to the mesh vertex positions it gives the positions listed by cut_vertices(), of which every column is filled. The rows match the vertices returned by SliceGenerator::slice.", "quantifier": "all meshes, all sets of crossings produced by bake, all rows and all functions on the vertices", "why_tests_cant": "A statement about every crossing of every input mesh, in particular about meshes with coinciding vertices.", "anchors": ["include/mandoline/construction/cutdata_impl.hpp: barycentric_map, cut_vertices, crossings", "src/tools/planar_slicer.cpp: SliceGenerator::slice, barycentric_map"]}
{"id": "C114", "title": "The edge set of the cut data is the set of its cut edges", "statement": "CutData::edges() returns exactly the sorted pairs of different vertex indices that some entry of cut_edges() joins (edges of the mesh and edges inside triangles); it is strictly increasing, duplicate free and the same for every thread schedule; the end points of every input edge are connected in it.", "quantifier": "all meshes, all vertex numberings, all interleavings of the parallel loops", "why_tests_cant": "Every schedule of the parallel loops and every input mesh.", "anchors": ["include/mandoline/construction/cutdata_impl.hpp: edges, stl_edges, edge_edges, face_edges, bake", "include/mandoline/construction/facet_intersections.hpp: vptr_edges, edge_to_triangle_map"]}
{"id": "C115", "title": "get_face_bary gives the coordinates of a crossing in the triangle", "statement": "CutData::get_face_bary(t, crossing) returns barycentric coordinates that reproduce the position of the crossing from the corners of triangle t: unit coordinates at corners, interpolation along its own edges, stored coordinates for crossings inside it, and the solution of the barycentric system for other points of the plane.", "quantifier": "all triangles, all crossings lying in the triangle", "why_tests_cant": "All kinds of crossings in all triangles, including those recorded in a neighbouring coplanar triangle.", "anchors": ["include/mandoline/construction/cutdata_impl.hpp: get_face_bary", "include/mandoline/construction/facet_intersections.hpp: get_bary"]}
{"id": "C116", "title": "Edges added to a 2D generator are all there, once each", "statement": "After any sequence of calls of add_edges, add_boundary_elements, set_boundary_elements and clear on a 2D generator, the edge matrix of its cut data holds every edge given since the last reset, once each, and no uninitialised column; an edge already present is not added again.", "quantifier": "all sequences of calls, all edge lists", "why_tests_cant": "Every call history and every multiset of edges.", "anchors": ["include/mandoline/construction/generator_impl.hpp: add_edges, set_boundary_elements, clear", "src/construction/generator2.cpp: add_boundary_elements"]}
{"id": "C117", "title": "Vertex accessors of a generator agree with the numbering of crossings", "statement": "After baking, V(i) is the world position of every crossing with index i, for exactly the indices below num_vertices(); vertex_reindexer() maps exactly these indices; vertex(i), compact_vertices() and the predicates is_grid_vertex, is_orig_vertex and is_new_vertex classify and locate the vertices by the same numbering.", "quantifier": "all baked cut data, all vertex indices", "why_tests_cant": "All inputs, in particular those with coincident or on-grid input vertices where the numbering is not simply stacked.", "anchors": ["include/mandoline/construction/generator_impl.hpp: bake_vertices, V, vertex, vertex_reindexer, compact_vertices", "include/mandoline/construction/generator.hpp: is_grid_vertex, is_orig_vertex, is_new_vertex, num_vertices"]}
{"id": "C118", "title": "The generated mesh lists every vertex and edge with the right identity", "statement": "generate_vertices/generate_edges produce a mesh whose cut vertices are the crossings at their indices, with no default vertex; whose cut edges are the pieces of the input edges (with parent, and in 2D a normal perpendicular to the parent) followed by the grid edges (with the axis and coordinate of their line); and whose interpolated edges give, for every piece of an input edge, the parameters of its two ends on the parent.", "quantifier": "all baked cut data, all lists of cut and grid edges", "why_tests_cant": "All inputs, including several input edges meeting in one crossing.", "anchors": ["include/mandoline/construction/generator_impl.hpp: generate_vertices, generate_edges", "include/mandoline/cutedge.hpp: CutEdgeBase, CutEdge", "include/mandoline/construction/cutdata_impl.hpp: get_edge_coord"]}
{"id": "C119", "title": "edges, edge_slice and axial_edges of a generator agree", "statement": "edges() is the duplicate-free set of index pairs of all cut and grid edges; edge_slice(dim, k) is the subset whose mask binds axis dim to k; axial_edges()[dim] has an entry for exactly the planes with edges, equal to the slice; no undirected edge is listed twice.", "quantifier": "all lists of cut and grid edges, all axes and coordinates", "why_tests_cant": "All sets of edges and planes.", "anchors": ["include/mandoline/construction/generator_impl.hpp: edges, edge_slice, axial_edges"]}
{"id": "C120", "title": "Paired-boundary validation accepts only consistently paired meshes", "statement": "paired_boundary returns true exactly when every cut face is used by at most two cut cells of each region, faces used once are input-mesh faces, quadrilaterals, folded or on the domain boundary, and the two uses of a face have opposite signs.", "quantifier": "every loaded 3D mesh whose cells refer to existing faces", "why_tests_cant": "the acceptance condition ranges over all meshes; a handful of accepted meshes do not show what acceptance implies", "anchors": ["tools/validation/paired_boundary.cpp: paired_boundary", "tools/validation/possible_cells.cpp"]}
{"id": "C121", "title": "Grid-cell validation accepts exactly the meshes whose cut cells fill their grid cells", "statement": "grid_cells_fully_utilized returns true exactly when the cut cells of every cut grid cell add up to its volume within 1e-5 and the cut grid cells are exactly the active ones.", "quantifier": "every mesh and every vector of cell volumes", "why_tests_cant": "acceptance over all meshes", "anchors": ["tools/validation/grid_cells.cpp: grid_cells_count, grid_cells_fully_utilized"]}
{"id": "C122", "title": "Region volumes are reported under the region's own label", "statement": "region_volumes maps every region label to the sum of the volumes of the cells with that label.", "quantifier": "every list of labels and volumes", "why_tests_cant": "the index map is right for some orders of first appearance and wrong for others", "anchors": ["tools/validation/region_volumes.cpp: region_volumes"]}
{"id": "C123", "title": "Volume check accepts exactly the meshes whose region volumes match the input's", "statement": "volume_check returns true exactly when every region's volume agrees, within 1e-3 of the bounding box, with that of the input mesh (the exterior region up to the box), and brep_region_volumes adds each triangle's signed volume to one side and subtracts it from the other.", "quantifier": "every mesh, volumes and input volumes", "why_tests_cant": "acceptance over all meshes", "anchors": ["tools/validation/region_volumes.cpp: volume_check, brep_region_volumes"]}
{"id": "C124", "title": "Exterior valences count the faces of every exterior cell", "statement": "exterior_grid_valences maps each exterior cell to the number of cut and exterior faces on it, and exterior_cell_valence_counts accepts exactly when each such number is six.", "quantifier": "every mesh, generated or loaded", "why_tests_cant": "ids and positions coincide on small grids only", "anchors": ["tools/validation/external_cell_valences.cpp: exterior_grid_valences, exterior_cell_valence_counts"]}
{"id": "C125", "title": "Winding-number validation looks at every cut cell", "statement": "pcwn_count counts the cut cells whose surface has and has not a piecewise constant winding number; pcwn_check accepts exactly when none has not.", "quantifier": "every mesh", "why_tests_cant": "a mesh whose cells all pass does not show which cells were looked at", "anchors": ["tools/validation/pcwn_count.cpp: pcwn_count, pcwn_check"]}
{"id": "C126", "title": "Face-utilisation validation accepts exactly the meshes whose faces fill triangles and grid faces", "statement": "faces_fully_utilized returns true exactly when no piece of an input triangle is inverted, the pieces of every triangle add up to it and every grid face is filled by cut and exterior faces, up to 1e-5.", "quantifier": "every loaded mesh, exterior cells of any width, any face volumes", "why_tests_cant": "acceptance over all meshes", "anchors": ["tools/validation/faces_fully_utilized.cpp", "src/adaptive_grid.cpp: grid_face_projection", "src/operators/interpolation3.cpp: face_grid_volume_matrix"]}
{"id": "C127", "title": "The generator's self-checks report exactly what they claim", "statement": "The 3D generator's check_face_utilization returns true exactly when every generated face is used by a cell (faces on input triangles lying in a grid plane excepted), check_cell_containment exactly when every face fits in one grid cell, face_mask binds exactly the coordinates all vertices share, and area_normal of a face is its area vector.", "quantifier": "every generated mesh, any faces, loops and vertices", "why_tests_cant": "exactness over all face sets", "anchors": ["src/construction/generator3.cpp: area_normal, check_face_utilization, check_cell_containment", "include/mandoline/construction/generator_impl.hpp: face_mask, is_in_cell, possible_cells"]}
{"id": "C128", "title": "The cell stage of the 3D generator is right as a whole", "statement": "Given the generated faces, the stage that builds cells and regions assigns each side of each face to at most one cell, drops exactly the cells bounded only by external faces or only by the walls of the domain, records behind external faces an uncut grid cell on the side opposite to the face's cell, tiles the uncut region with exterior cells numbered after the cut cells, and labels two cells alike exactly if they lie in the same component of the domain without the input surface.", "quantifier": "every face set, vertex positions, cyclic orders, union-find behaviours, cell masks; grids for which the exterior grid tiles (C24)", "why_tests_cant": "composition of collapsing, removal, coarsening and labelling over all meshes", "anchors": ["src/construction/generator3.cpp: bake, bake_cells, update_active_grid_cell_mask", "src/construction/generator3_make_faces.cpp: compute_faces", "src/construction/cell_collapser.cpp"]}
{"id": "C129", "title": "3D cells are the wedge-connected components around edges", "statement": "After CellCollapser::bake/merge on flat faces whose edges are at least 1e-8 long and no two of which leave an edge in the same direction, two face sides belong to the same cell exactly when a chain of wedge steps joins them: a step turns about an edge a->b counter-clockwise from the side of one face to the facing side of the very next face (no other face strictly inside the wedge). It holds however the half-faces are ordered in memory, from whichever ray cyclic_order starts and however normals are scaled. For edges shorter than 1e-8 the kept axis comes from an eigen-analysis that is not tied to the edge, and a face pair separated by another face can be put in one cell.", "quantifier": "all plain face families with normals perpendicular to their edges, all vertex positions, all pointer orders, all sorters by counter-clockwise angle, merge_open_faces on or off", "why_tests_cant": "the order depends on the signs of the edge direction, on which axis dominates, on face orientation and on memory addresses; a test fixes one geometry and one allocation order", "anchors": ["include/mandoline/construction/cell_collapser.hpp: CellCollapser::merge_around_edge, merge", "src/construction/cell_collapser.cpp: collect_halffaces, cell, dual_cell"]}
{"id": "C130", "title": "The slices of the volume know which of their squares are cut", "statement": "When the 3D generator bakes, each grid plane gets a 2D mask whose false entries are exactly the unit squares having, on one side or the other, a grid cell touched by a crossing; a plane without a mask has no such square; a crossing inside the domain on a plane guarantees that the plane's record exists before the parallel loop over planes (so that loop never inserts into the shared map for it). The edges handed to the plane are exactly the cut and grid edges lying in it, each once with its smaller vertex first, and its boundary edges, numbered as vertices of the volume, are exactly the grid edges of the plane with a touched square on one side and an untouched square or the outside on the other.", "quantifier": "every grid shape, every set of crossings, every axis and plane, every edge list", "why_tests_cant": "The masks are accumulated over all touched cells and three axes with wrap-around index arithmetic; a wrong neighbour plane or swapped axis shows only for particular positions.", "anchors": ["src/construction/generator3_make_faces.cpp:CutCellGenerator<3>::bake_faces", "include/mandoline/construction/generator_impl.hpp:active_cells", "src/construction/generator.cpp:compute_planar_hem"]}
{"id": "C131", "title": "Centroids of a 2D cut-cell mesh", "statement": "centroids() of a 2D mesh has one column per cell in the numbering used by cell_index, regions and volumes; the column of a cut face is the centre of mass of the area enclosed by its loops (holes subtracted), lies strictly inside the convex hull of the face and in the face's grid cell, and the column of an uncut cell is its centre, so that locating a centroid gives the cell back.", "quantifier": "every 2D mesh, face, number and shape of loops, every family of triangles filling the face, every winding number function", "why_tests_cant": "a statement about arbitrary polygons with arbitrary holes and positions; tests only see a few shapes", "anchors": ["src/mesh2.cpp:CutCellMesh<2>::centroids", "include/mandoline/cutface_impl.hpp:CutFace<2>::brep_centroid", "src/mesh2.cpp:CutCellMesh<2>::cell_index"]}
{"id": "C132", "title": "Triangulation of 2D cut faces", "statement": "Triangulating a 2D cut face gives triangles on the face's own vertices that cover the face exactly, holes excluded; faces() does the same for every cell of the mesh; caching an empty triangulation leaves the cached one unchanged.", "quantifier": "every face (any loops, any identity), every behaviour of the external triangulators", "why_tests_cant": "holds or fails for whole classes of faces (non-convex, with holes) and for any external triangulator", "anchors": ["src/cutface2.cpp:CutFace<2>::triangulate", "src/cutface2.cpp:CutFace<2>::triangulate_triangle", "src/mesh2.cpp:CutCellMesh<2>::faces", "src/construction/generator2.cpp:generate_faces"]}
{"id": "C133", "title": "A generated planar mesh is consistent as a whole", "statement": "Whenever the half-edge mesh built from the cut edges is a planar subdivision (every cut edge occurs once in each direction among the faces, no face lies on both sides of an edge, each face either lies in one cut grid cell or is the outside / a region of uncut cells recognisable by its area or by the lower corner of its bounding box), generate() succeeds; the cut cells are exactly the faces inside cut grid cells and each is listed under its grid cell; every cut edge off the border has exactly two cells with coefficients +1 and -1 in boundary(), every border edge exactly one; the edges marked -2 are exactly those on the border of the grid; constants are in the kernel of boundary(false) and of the laplacian; and point location returns a cell inside the point's grid cell. REFUTED without the recognisability condition: an enclosed L-shaped region of uncut cells is kept as a cut cell, three cells share an edge and the laplacian does not annihilate constants.", "quantifier": "every grid shape, mask, vertex set, cut edge list and face list that form such a subdivision, every union-find linking order, every Hodge star", "why_tests_cant": "the pieces (face selection, ownership, external boundary, incidence signs, regions) are computed by separate loops that only agree if the geometry of every edge does; sample meshes miss regions of uncut cells whose bounding box starts in a cut cell", "anchors": ["src/construction/generator2.cpp:CutCellGenerator<2>::generate", "src/construction/generator2.cpp:CutCellEdgeGenerator<2>::generate_faces", "src/operators/boundary2.cpp:boundary", "src/mesh2.cpp:CutCellMesh<2>::cell_index"]}
{"id": "C134", "title": "A generated 3D mesh is consistent as a whole", "statement": "Whatever faces compute_faces hands over (a map of faces with non-negative ids, non-empty loops of proper vertices, no external boundary yet), generate() returns a mesh whose faces are those faces in the order of their ids with only the external boundary filled in (an uncut grid cell or -2), and whose cells are numbered by position and list only existing faces, each once. On grids where the exterior cells tile the uncut part: exterior cells are numbered after the cut cells, point location and regions() are defined and mean what they say on this mesh (cut cells have the same label iff they are connected without crossing the input surface), every face inside the domain with nothing recorded behind it lies on exactly two cells, once with each sign, or, if folded, on one cell once; without folded faces the laplacian annihilates constants. REFUTED: with a folded face inside the domain (a surface with boundary inside a cell) the laplacian of a constant is never zero; and the cut cells do not fill the cut part of the domain: for a closed surface strictly inside one grid cell the space between the cell's walls and the surface is dropped, and the surface's outer side becomes a cell with the opposite volume.", "quantifier": "every grid, mask, face map, cyclic order around edges, union-find linking order, level, Hodge weights", "why_tests_cant": "it composes collapsing, two removal passes, reindexing, external boundaries, renumbered exterior cells and region labelling, each over maps of unbounded size; sample meshes are closed surfaces crossing the grid and never have folded faces or surfaces inside one cell", "anchors": ["src/construction/generator3.cpp: generate, bake_cells", "src/mesh3.cpp: boundary, regions, get_cell_index", "src/construction/cell_collapser.cpp: remove_boundary_cells, remove_grid_boundary_cells, folded_faces"]}
{"id": "C135", "title": "Incidence accessors of a 3D mesh", "statement": "cell_faces() lists for every cut cell exactly its faces, each once, and cell_faces(i) is that list for cut cells and throws for any other index; boundary_faces() is defined iff every face with barycentric coordinates is a face of the mesh, and marks exactly those (on a generated mesh: exactly the pieces of the input surface). REFUTED: CutCell::boundary_triplets has the opposite sign of the boundary operator at every face of every cell; face_boundary() is always the zero matrix; local_grid_cell_index and world_grid_cell_index are -1 for every point.", "quantifier": "every mesh, cell, face, point; for the generated-mesh part every run of generate()", "why_tests_cant": "sets over unboundedly many faces; the sign disagreement is between two accessors on all meshes", "anchors": ["src/mesh3.cpp: cell_faces, boundary_faces, face_boundary, local_grid_cell_index, world_grid_cell_index", "src/cutcell.cpp: boundary_triplets"]}
{"id": "C136", "title": "Face centroids of a 3D mesh", "statement": "face_centroids() is defined iff every loop names existing vertices, has one column per face (cut faces first), and a cut face's column is the mean of its loop vertices, so it lies in their convex hull and in their plane; for triangles and parallelograms it is the centre of mass. An exterior face between two cells has, in world coordinates, the centre of its square if the lower cell is not the smaller one, otherwise the centre moved by the face's width. REFUTED: for other polygons (a trapezoid) the column is not the centre of mass; exterior faces on the domain wall always have column (0,0,0) whatever the grid's origin.", "quantifier": "every mesh, face; exterior part: every disjoint set of dyadic cells", "why_tests_cant": "must hold for every loop length and geometry", "anchors": ["src/mesh3.cpp: face_centroids", "src/adaptive_grid.cpp: boundary_centroids"]}
{"id": "C137", "title": "Which faces the generated 3D mesh has", "statement": "When the 3D generator turns the cut input triangles and the planar slices into faces, the mesh has exactly once each piece of the input surface with three or more vertices (with the piece's parent triangle, its normal and its barycentric data) and each face of a slice that keeps at least one loop (with the axis and plane, the axis' unit normal); a piece lying in a grid plane and counted there is not repeated; the resulting mesh satisfies what the operators on meshes rely on.", "quantifier": "for every list of cut input faces, every list of slices with their half-edge cell indices, every active mask, merge order and adaptive level", "why_tests_cant": "face numbers are handed out by a running offset over all slices, so one slice decides the numbers of all later ones; a test sees a few slice sequences and not the one in which numbers collide", "anchors": ["src/construction/generator3_make_faces.cpp:34-75", "src/construction/generator3_make_faces.cpp:245-252", "src/construction/generator3_make_faces.cpp:361-497", "CutCellGenerator<3>::compute_faces"]}
{"id": "C138", "title": "Exporting cells as an OBJ surface", "statement": "The export tool writes, for the cells it is given, the boundary surface of the union of those cells, each boundary face once and facing consistently; the options choose which files (all cells, one per region, one per cell) are written. (REFUTED: the selection is overwritten, so any two non-empty or empty valid selections give the same file, the whole domain's border; the tool always writes the single file exterior.obj and returns; border squares of uncut cells are always written facing into the domain, against the cut faces next to them.)", "quantifier": "for every mesh, every selection of cells, every choice of options and of the external triangulator", "why_tests_cant": "a test compares a few exported files; that the selection never matters, and which faces are written in which orientation, is a statement about all meshes and selections", "anchors": ["tools/cutmesh_to_obj.cpp: write_obj, write_obj_regions, write_obj_separate, main", "src/mesh3.cpp: triangulated_cut_faces, is_cut_face", "src/exterior_grid.cpp"]}
{"id": "C139", "title": "The pressure matrix lets nothing flow through the input surface", "statement": "For a generated mesh and a Hodge weight per face, the laplacian example's matrix is square over all cells, entry (i,j) is the sum over faces of weight * B(f,i) * B(f,j) with the faces cut from the input left out; it is symmetric, positive semidefinite for nonnegative weights, maps constants to 0 when inside faces have oppositely oriented sides, and maps x to 0 exactly when x does not jump across any face of positive weight that is not of the input.", "quantifier": "every generated mesh, every vector of Hodge weights, every pressure vector", "why_tests_cant": "symmetry, semidefiniteness and the kernel are statements about all vectors and all meshes", "anchors": ["examples/laplacian/setup.cpp:laplacian", "src/operators/masks.cpp:mesh_face_mask", "src/operators/boundary3.cpp"]}
{"id": "C140", "title": "The pressure right-hand side and whether it has a solution", "statement": "divergence() of the laplacian example is 0 on cut cells, 1 on exterior cells whose corner is on the low side along the largest component of the direction, -1 on those whose corner has the last coordinate and 0 elsewhere. The system has a solution only if the number of low cells equals the number of high cells; otherwise every candidate leaves a residual of at least |low-high|/n. Users expect a solvable system: refuted by a 2x2x2 grid with one cut cell, by one-layer grids, by merged cells on the far side, and a single-cell grid makes the solver divide by zero.", "quantifier": "every generated mesh, direction and weight vector", "why_tests_cant": "non-existence of a solution ranges over all vectors; the test meshes happen to be symmetric", "anchors": ["examples/laplacian/setup.cpp:divergence", "examples/laplacian/setup.cpp:pressure"]}
{"id": "C141", "title": "What the preconditioned conjugate gradient solver returns", "statement": "ldlt_pcg_solve makes at most nine passes; if it stops earlier the residual is at most 1e-5 times the largest entry of b; after k passes its iterate has the least energy among all combinations of the k search directions; applying the preconditioner is a symmetric linear map, definite for positive pivots; for a solvable semidefinite system with a definite preconditioner no pass divides by zero, and a system of at most nine unknowns is solved to the tolerance.", "quantifier": "every symmetric matrix, right-hand side, preconditioner factors and number of passes", "why_tests_cant": "optimality over all combinations and termination for all systems are universally quantified", "anchors": ["examples/laplacian/solver.hpp:PreconditionedConjugateGradient::solve", "examples/laplacian/solver.hpp:SparseLDLT::solve", "examples/laplacian/setup.cpp:pressure"]}
{"id": "C142", "title": "Repairing empty columns keeps the system", "statement": "fix_axis_aligned_indefiniteness puts a diagonal 1 and right-hand side 0 in each column whose entries are all 0 and changes nothing else; for a symmetric matrix the result is symmetric, has no empty column, stays positive semidefinite, and x solves it exactly when x solves the non-empty rows of the given system and vanishes at the empty ones.", "quantifier": "every square matrix and right-hand side", "why_tests_cant": "equivalence of solution sets quantifies over all vectors and all matrices", "anchors": ["src/diffgeo_utils.cpp:fix_axis_aligned_indefiniteness", "examples/laplacian/setup.cpp:fix_axis_aligned_indefiniteness"]}
{"id": "C143", "title": "The pressure example's preconditioner is positive definite and its solver converges", "statement": "On any matrix whose diagonal is positive, building the preconditioner of the pressure solver never divides by zero, gives pivots that are positive and at least a quarter of the diagonal entry, and applying it is a symmetric positive definite map, whatever the off-diagonal entries are; a zero row keeps a zero pivot and leaves no trace. With it, the solver returns, for a solvable symmetric positive semidefinite system with at most nine unknowns, a vector whose residual is at most 1e-5 of the right-hand side. The factors are not an exact factorization even when there is room for every entry (refuted).", "quantifier": "all matrices, sizes, stored patterns, right-hand sides and whatever is read past the end of a stored column", "why_tests_cant": "The pivots depend on every earlier column; a test sees one matrix, and the read past a column's end varies with memory contents.", "anchors": ["examples/laplacian/solver.hpp:62-170 SparseLDLT", "examples/laplacian/solver.hpp:185-250 PreconditionedConjugateGradient, ldlt_pcg_solve"]}
{"id": "C144", "title": "The dense factorization reproduces its matrix and solves it", "statement": "For a symmetric matrix whose pivots but the last exceed 1e-4, getA() of the dense factorization gives the matrix back, and if the last pivot is not zero solve(b) returns the solution of A x = b. The threshold is absolute: the same matrix in smaller units is not reproduced (refuted without the bound).", "quantifier": "all sizes, symmetric matrices and right-hand sides", "why_tests_cant": "It is an identity in all entries of matrices of every size.", "anchors": ["examples/laplacian/solver.hpp:8-57 DenseLDLT"]}
{"id": "C145", "title": "The file written for a 2D cut mesh describes the mesh", "statement": "write_cutmesh2_plcurve lists every vertex with its position, one row per edge of the mesh numbered like the mesh (cut edges with the element labels of the input edge they come from, exchanged when they run against it; exterior facets with the two grid vertices they join, each a side of both neighbouring cells walked in opposite directions, each written once), and for every cell in index order one row per boundary loop with its region; it never takes its 'File a bug report' branch, and read_plcurve reads the vertices and edges back. (Refuted for read_plcurve: with more edges than vertices, as for every uncut mesh of at least 2x2 cells, reading the file writes out of bounds.)", "quantifier": "all 2D cut meshes, input edges with or without element labels, number formats that print integers exactly", "why_tests_cant": "the claim ranges over all meshes, exterior masks and label tables; a test sees one file", "anchors": ["src/tools/plcurve_io.cpp:write_cutmesh2_plcurve", "src/tools/plcurve_io.cpp:read_plcurve", "tools/boundary_curves_to_cutmesh2.cpp"]}
{"id": "C146", "title": "A drawn set of curves has exactly its edges, whatever the drawing session", "statement": "After any sequence of drawing operations the edges of a drawing are exactly: every point to the next point of its curve, and on a closed curve the last point to the first, numbered over all curves; indices are in range, no point starts or ends two edges, the lines shown are the edges drawn between the points, edges plus open curves equal points. Adding a point appends it and one edge; removing a point undoes adding it; closing twice changes nothing; the only operation that can go wrong is removing a curve when there is none. Saving a drawing of closed curves and reading the file back gives the drawing. (Refuted: an open curve does not survive saving and reading; a closed curve of one point has an edge from the point to itself, and nothing else does.)", "quantifier": "all drawings, operation histories and number formats that print the coordinates exactly", "why_tests_cant": "claims over all histories and all numbers of curves and points", "anchors": ["examples/curve_drawing_2d/plcurve2.cpp:PLCurve2::edges, lines, points, save", "examples/curve_drawing_2d/plcurve2.hpp:PLCurve2"]}
{"id": "C147", "title": "remove_self_intersections keeps one triangle per vertex set", "statement": "After removing duplicates, the triangles written are exactly the vertex sets of the input triangles, each once, with sorted indices; the result depends on nothing but those vertex sets and removing duplicates again changes nothing. (Refuted: that the surface stays oriented. For every non-empty closed surface, two of the written triangles walk a common edge in the same direction.)", "quantifier": "all triangle lists; for the refutation every closed surface", "why_tests_cant": "ranges over all triangle lists, orders and orientations", "anchors": ["tools/remove_self_intersections.cpp:40-48"]}
{"id": "C148", "title": "Parsing of grid vectors and shapes from configuration and command line", "statement": "Three words separated by blanks are read as written, whatever blanks surround them and whatever follows; a shape is accepted exactly when it is three numbers separated by two commas. (Refuted: that fewer than three words are an error: one word w is read as w w w and two words a b as a b a, unless a blank follows, when the program throws. These are all the cases.)", "quantifier": "all strings", "why_tests_cant": "ranges over all strings, including every placement of blanks", "anchors": ["tools/cfg_to_cutmesh.cpp:parse_3toks", "tools/make_cutmesh_from_cmdline.cpp:117-136"]}
{"id": "C149", "title": "The command line tool places the mesh in its grid", "statement": "The mesh handed to the generator is the input moved and uniformly scaled (not scaled without --normalize, untouched with --prescaled alone); unless only --prescaled is given it is centred at the origin and with --normalize its longest side is 1; this fails only for a mesh whose vertices all coincide. The grid's box contains every vertex, strictly along every axis along which the mesh has an extent; the adaptivity level passed on is never negative. (Refuted: a positive box along every axis: a flat mesh gets a box of zero thickness and so a grid of zero spacing.)", "quantifier": "all vertex lists and flags", "why_tests_cant": "ranges over all point sets", "anchors": ["tools/make_cutmesh_from_cmdline.cpp:147-195"]}
{"id": "C150", "title": "cutmesh_info reports the regions and the misplaced cells", "statement": "The report lists each occurring region once in increasing order with its number of cells, and the counts add up to the number of cells of the mesh; a cell is reported as outside the grid along exactly the axes where its grid cell is out of range, so nothing is reported iff all cut cells lie in grid cells.", "quantifier": "all meshes with a region per cell", "why_tests_cant": "ranges over all meshes and region assignments", "anchors": ["src/tools/cutmesh_info.cpp:print_region_info", "src/tools/cutmesh_info.cpp:print_cell_info"]}
{"id": "C151", "title": "Baking with holes merges exactly the loops joined by containment, and nested rings are merged too", "statement": "FaceCollapser::bake(V) with the default nonsimple_faces = true merges face loops as follows: two loops get the same face id exactly when they are connected by a chain of steps from a counter-clockwise loop to a clockwise loop that is not larger and has all its vertices inside it. Half-edges of removed faces stay removed, ids stay contiguous from 0, and faces() lists for each id the loops of all its members. If no clockwise loop lies in two counter-clockwise ones this is: an outer loop with its holes. REFUTED in general: that a merged face is one region of the plane (a hole inside two nested outer loops joins both regions).", "quantifier": "every simple edge set, vertex positions, neighbour order, removal marks, sort implementation and containment test", "why_tests_cant": "the bundled test has one polygon with one hole; depth of nesting, order of areas and ids range over all inputs", "anchors": ["include/mandoline/construction/face_collapser.hpp: bake, merge_faces, volumes, is_inside", "src/construction/face_collapser.cpp: faces, faces_no_holes", "tests/face_collapser_test.cpp", "include/mandoline/construction/facet_intersections_impl.hpp"]}
{"id": "C152", "title": "The parameters window of the generator keeps box, counts and grid consistent", "statement": "For CutmeshGenerator_Imgui: a frame in which the user types nothing changes nothing and reports no change; any other frame takes over the typed counts, cube flag and level, cuts a typed minimum at the maximum shown, raises a typed maximum to the minimum, reports a change, and gives the generator the grid of the values now shown. After every history of frames and update calls the generator works on the grid of the box, counts and flag shown and on the level shown, and the box is never inside out. New vertices give a box of positive size in every axis.", "quantifier": "all objects, all frames, all histories of gui, set_bbox, update_vertices, update_vertices_and_bbox, update_mesh_and_bbox, update_grid and bake, for every grid function, bounding-box function and rounding to float", "why_tests_cant": "the consistency must hold after every interleaving of user input and program calls and for every value typed", "anchors": ["src/construction/construct_imgui.cpp: CutmeshGenerator_Imgui::gui, update_grid, set_bbox, update_vertices_and_bbox, update_mesh_and_bbox, create", "include/mandoline/construction/construct_imgui.hpp: CutmeshGenerator_Imgui"]}
{"id": "C153", "title": "Sessions of the cut-mesh window make, show and save the mesh of the parameters shown", "statement": "In the window of make_cutmesh_gui, Make CCM always makes the mesh a newly constructed generator makes from the input mesh, the grid of the box, counts and cube flag shown, and the level shown; the bounding box controls change the grid; every file saved is the mesh of the last Make CCM before the save, and Save writes exactly once when there is a mesh; the chosen axis and plane are within the grid of the mesh at hand; the edges listed under a plane are exactly the cut edges with both ends in it, and the edges shown belong to the mesh at hand; no sequence of user actions makes the program fail.", "quantifier": "all sequences of user actions in the window (any length), all input meshes, all typed values, every mesh generator and grid function", "why_tests_cant": "a session is an unbounded history of events; stale grids, stale meshes and stale displays appear only in particular orders", "anchors": ["tools/make_cutmesh_gui.cpp: MeshViewer::update, update_edges, make_ccm, gui", "src/construction/construct_imgui.cpp: generate", "src/construction/construct.cpp: DeformingGeometryConstructor"]}
{"id": "C154", "title": "The slicer's cap and result", "statement": "SliceGenerator::slice returns the part of the mesh on the positive side of the plane closed by a cap: the vertex table holds each crossing at its index with its own position and no unset entry; the cap is made from exactly the cut edges both of whose ends are in the plane; every cap triangle lies in the plane and comes from a cell of positive area, every such cell is triangulated, and the cap adds no vertices; every other triangle is in the closed half space, and every cut face in it is returned; input vertices come back unchanged at their index; the result closes the section consistently oriented and leaves hollows open.", "quantifier": "for every mesh, grid, list of crossings, cut edges and faces, and every half-edge mesh and triangulation library whose output uses only the vertices handed to it", "why_tests_cant": "the indices, cells and triangulations depend on the crossings of the particular mesh; the orientation and the hollow sections go wrong only in meshes a single visual check does not show", "anchors": ["src/tools/planar_slicer.cpp: SliceGenerator::slice", "include/mandoline/construction/cutdata_impl.hpp: CutData::cut_vertices, CutData::cut_vertex_size"]}
{"id": "C155", "title": "Turning edges into drawable curves", "statement": "edge_to_plcurves takes the faces that FaceCollapser finds in the edges (each half-edge once, under its face), traces each face's edges into curves, and returns an open curve always and a closed one unless its signed area times the signed area of its face's edges is below -1e-10. So a closed curve that runs along its face's edges is always returned, and one that runs against them is dropped exactly when the squared area exceeds 1e-10. One simple closed polygon has exactly two faces, itself and itself reversed; it comes back exactly once when the tracing ignores the directions of the edges and its squared area exceeds 1e-10. It comes back twice if the tracing follows the directions, and twice however it is traced if its squared area is at most 1e-10.", "quantifier": "all edge lists, points, link choices and orders around a point; all simple closed polygons with at least three points; all unique/tracing functions meeting their contract", "why_tests_cant": "the curve returned depends on every half-edge's face and on the sign and size of the area of every curve", "anchors": ["src/tools/edges_to_plcurves.cpp: edge_to_plcurves", "src/construction/face_collapser.cpp: FaceCollapser::face_edges", "examples/curve_drawing_2d/plcurve2.cpp: PLCurve2::load"]}
{"id": "C156", "title": "Sessions of the 2D viewer", "statement": "In the 2D viewer, over every sequence of mouse and menu events: the mesh shown is the one generated from the box, resolution and curves at the moment of the last \"Make CCM\", and no other event changes it; the box stays two-dimensional and min <= max; with a file it strictly contains every point read. No event before \"Make CCM\" should crash (one does if Browse is chosen first, or a file is given), and with Browse chosen only afterwards none does. A typed face index is cut to the cells of the mesh; in Browse it is the cell under the cursor. The highlighted triangles should always be those of the cell at the face index over the mesh's vertices, and gone when the cursor is over no cell (both fail). Every cell is filled with the triangles of its first loop in that cell's colour. \"Reset Curve\", and the start, should give one closed square (it is open).", "quantifier": "all event sequences, cursor positions, typed values and curves; all generators, triangulations, winding numbers and solvers meeting their contract", "why_tests_cant": "the highlight, the mesh and the crash depend on the order of the events, of which there are infinitely many", "anchors": ["examples/curve_drawing_2d/viewer2d_main.cpp: MeshViewer::MeshViewer, mousePressEvent, mouseMoveEvent, gui, reset_curve, update_ccm, update_face, update_faces", "examples/curve_drawing_2d/plcurve2.hpp: PLCurve2::toggle_closed, is_closed"]}
{"id": "C157", "title": "Fluxes and colours of the 2D viewer", "statement": "The right-hand side shown by the 2D viewer comes from one flux per edge of the mesh: 0 on an edge that is not on the border of the domain, and on the border the component of the chosen direction across it (true of the exterior grid; on the edges of cut cells the component along the border is taken instead). A cell none of whose edges has a flux gets 0. A solution is shown in red where positive and blue where negative, scaled by its largest absolute value, so at most 1. In every colour mode every cell gets a colour, with no negative component and opaque, and a cell's region colour depends on its region only.", "quantifier": "all 2D meshes with consistent incidence and boundary data, all directions, weights and solutions", "why_tests_cant": "it ranges over every edge of every mesh and every direction", "anchors": ["examples/curve_drawing_2d/viewer2d_main.cpp: MeshViewer::get_rhs, get_solution, update_colors"]}
{"id": "C158", "title": "Sessions of the exploded mesh viewer", "statement": "In the exploded mesh viewer, after every sequence of menu events, the window holds for every region the mesh of that region's cells at the scale, centres, slice origin and direction last set (sliced exactly if Slice is on), with every vertex in the colour of its cell when not sliced; every cell's region has exactly one such mesh. \"Region colors\" gives two cells the same colour exactly if they are in the same region, with every component in [0,1] (with region 0 alone the red is not a number). \"Save\" should write what is shown: it writes the region chosen under Show Multi when one is chosen, and otherwise whatever an earlier save left, or an empty mesh.", "quantifier": "all event sequences and values, exploders, region numberings and colours; any slicer", "why_tests_cant": "what is shown and saved depends on the order of the events, of which there are infinitely many", "anchors": ["examples/exploded_mesh/main.cpp: MeshViewer::MeshViewer, gui, update_exploded, set_region_colors", "include/mandoline/tools/exploded_mesh.hpp: MeshExploder::mesh, colors, setCenters"]}
{"id": "C159", "title": "The edges of the adaptive grid factory", "statement": "AdaptiveGridFactory::compute_edges returns only edges of the cells the factory emits, as pairs of corner numbers in the vertex grid of the padded cube, and every edge of an emitted cell that does not run along an active or subdivided cell of the same size; for grids whose sides are one power of two the numbers are those of the grid's own vertices; mirrored activity gives mirrored edges; no two edges overlap; the boundary edges returned with them contain every edge on the border of the grid; the masks are read inside their range.", "quantifier": "all grid shapes, active cell sets and maximal levels", "why_tests_cant": "Ranges over all shapes, activity patterns and levels; which block decides about an edge depends on the traversal order of the whole grid.", "anchors": ["src/construction/adaptive_grid_factory.cpp: compute_edges / compute_axial_edges / get_edges / make_edges / make_edge_mask / set_edge_masks / get_edge"]}
{"id": "C160", "title": "Mesh viewer, point chaser, slicer window and original-mesh extractor", "statement": "After every sequence of slider events the mesh viewer shows the face and the cell whose numbers are nearest to the ones last asked for; the point chaser shows the cell the mesh reports for the point, and otherwise a selected cell of the mesh; the slicer holds and saves the slice by the plane last set and shows it; the extractor writes the mesh the stored mesh was cut from, and reading the file back gives it; its exit status tells whether it wrote.", "quantifier": "every mesh, every sequence of events, every plane, every list of arguments", "why_tests_cant": "What a window shows depends on the whole history of events and on the mesh; tests run a few histories on one mesh.", "anchors": ["examples/viewer/cutmesh_viewer.cpp: update_face, update_cell, gui", "examples/point_chaser/main.cpp: update_cell, gui", "examples/slicer/main.cpp: update_slice, gui", "examples/extract_original_mesh/main.cpp: main"]}
{"id": "C161", "title": "Border edges of a 2D mesh", "statement": "operators::grid_boundary_faces of a 2D mesh returns, sorted and once each, exactly the numbers of the cut edges on the first or last grid line of an axis and of the exterior edges on the border of the grid; all are edge numbers; edges between two exterior cells are not among them.", "quantifier": "every 2D mesh, of any grid shape and mask", "why_tests_cant": "Which edges count depends on the shape, the mask and the cut edges' lines together; tests try a few grids, none with a single layer of cells.", "anchors": ["src/operators/boundary2.cpp: grid_boundary_faces", "src/operators/boundary.cpp: grid_boundary_faces(DomainBoundary)", "include/mandoline/exterior_grid_impl.hpp: make_facets"]}
{"id": "C162", "title": "Face masks of the adaptive grid and of a domain boundary", "statement": "AdaptiveGrid::boundary_face_mask() has one entry per face, 1 exactly when the face lies between two distinct cells of the grid; it agrees entry for entry with grid_boundary_face_mask(), which looks only at the position of the face. DomainBoundary::boundary_face_mask() and interior_face_mask() return complementary masks, one entry per facet.", "quantifier": "every set of disjoint grid cells of any shape, every face made from them; every exterior grid", "why_tests_cant": "One mask depends on cell ids and the other on coordinates, and the ids change during baking; that they agree on every grid is a claim about all cell layouts.", "anchors": ["src/adaptive_grid.cpp: boundary_face_mask", "src/adaptive_grid.cpp: grid_boundary_face_mask", "include/mandoline/adaptive_grid.hpp: is_valid_edge", "src/domain_boundary.cpp: boundary_face_mask", "src/domain_boundary.cpp: interior_face_mask"]}
