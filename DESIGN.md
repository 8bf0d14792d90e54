# Formal model of mtao/mandoline in Rocq (Coq 8.16.1)

## Approach

* Model files `theories/<Area>.v` are plain, total, computable Gallina functions, each citing
  the file and lines of /repo it models. Proof files `theories/<Area>Proofs.v` hold lemmas.
  `theories/Props<Area>.v` hold only property theorems (`exact lemma` + `Print Assumptions`)
  and non-vacuity Examples.
* Integers: unbounded `Z` (no overflow). `double`: exact rationals `Qc` (canonical rationals of the
  standard library), i.e. no rounding, NaN or infinity, unless the theorem is about rounding.
* Grid/array dimension `D` is a parameter: coordinates are lists of length D.
* `std::map`/`std::set` are modelled as strictly sorted association lists or as duplicate-free lists when
  the order is irrelevant to the property.
* Undefined behaviour (out-of-range index, missing `.at` key, uninitialised read) is an explicit outcome
  (`None` or a dedicated constructor), never silently a default.
* A property that the faithful model violates is recorded as `..._refuted` with a concrete witness, together with
  the strongest true variant (`..._partial` or with the exact precondition).

## Plan per property

| id | model | proof |
|----|-------|-------|
| C01-C04 | CoordMask.v: masks as `list (option Z)` | pointwise induction; bit enumeration |
| C05-C06 | Vertex.v + MaskedGeometry.v | possible_cells <-> closed-cube containment |
| C07-C11 | Vertex.v: coord/quot/clamped over Qc | floor lemmas, lexicographic order lemmas |
| C12 | SubGrid.v | case analysis on axis |
| C13 | VertexTypes.v | counterexample triple |
| C14 | Crossings.v: fold over crossings with an ordered map | invariant over the fold |
| C15 | GridEdges.v: ordered map of crossings | induction on sorted list |
| C16 | SmallestEdge.v | fold-min + rotation permutation |
| C17-C19 | FaceCollapser.v | permutation argument per vertex ring, orbits, union-find |
| C20-C22 | CellCollapser.v | union-find invariant, filters |
| C23 | DisjointSet.v | refinement to equivalence closure (assumed behaviour of the external class, implementation modelled) |
| C24-C30,C39 | AdaptiveGrid.v, AdaptiveFactory.v | induction on levels, box arithmetic |
| C31-C32 | Proto.v | record equality |
| C33-C36 | ExteriorGrid.v, Boundary.v | counting/enumeration lemmas |
| C37 | DiffgeoUtils.v | enumeration; counterexample 2x3 |
| C38 | Mesh2.v | decision logic |
| C40 | Regions.v | union-find reachability |
| C41-C42 | Volume.v | ring arithmetic over lists |
| C43-C45 | Interp.v, Hodge.v | ring/field |
| C46 | Deform.v state machine | induction over histories |
| C47 | PlCurve.v parser state machine | induction over lines, counterexample |
| C48 | Exploder.v | prefix-sum induction |
| C49-C50 | ActiveMask.v, ExternalBoundary.v | decision logic; order independence of atomic insertions |
| C51,C73 | Boundary3.v: triplets of the 3D boundary operators | enumeration of triplets, duplicate summation (Sparse.v) |
| C52 | AngleSort.v | comparator is a strict weak order; cross-product algebra |
| C53 | CellCollapser.v | loop-cleaning invariant; counterexample for shared spurs; CleanSpurs.v, PropsSpurs.v: following the successor map gives the cycles of the remaining edges (injective, closed), which for a loop with its own spurs follows from counting edges in and out |
| C54-C58 | AdaptiveGrid.v, PropsAdaptive2.v | box arithmetic, renumbering |
| C59 | ExteriorGrid.v | index arithmetic |
| C60 | Mesh.v, Proto.v | fold of mask intersections |
| C61 | Diffgeo.v | enumeration of the staggered edges |
| C62-C65 | Mesh2.v | decision logic; enumeration of triplets |
| C66-C68 | CoordMask.v, Vertex.v | pointwise |
| C69-C72 | Interp.v | row/column sums by induction over triplets |
| C74-C75 | EdgeBake.v: crossings of an edge with the grid, snapping, ordered set | invariants over the fold; monotone parameters |
| C76-C77 | CutEdges.v: cut edges of an input edge, parameters | path invariant, for every schedule of the critical section |
| C78-C81 | TriBake.v: triangle/plane segments, boundary loop, condensation | invariants; barycentric algebra; grouping by keys |
| C82-C84,C86 | Queries3.v | fold invariants; floor of convex combinations |
| C85,C87,C88 | Queries3.v (PropsQueries4.v) | linear functionals on oriented triangles; index offsets |
| C89 | Deform.v (PropsIngest.v) | field arithmetic, threshold lemmas |
| C90,C91 | Surface2.v | walk simulates the adjacency up to swapping; quadratic forms over triplets |
| C92 | Line.v | clamped minimiser of a quadratic |
| C93 | CutLife.v (state machine, the computation of a bake left open) | invariant over all operation histories: clearing gives the constructed object |
| C94 | Slicer.v | field arithmetic; counterexamples |
| C95 | Triangulate.v (compaction, interior filter; library and winding number as parameters) | position tables: sorted-map lookup = index lookup |
| C96 | Triangulate.v, Volume.v | induction on the fan; chain cancellation |
| C97 | Triangulate.v | case analysis on the points added; counterexamples with a concrete library result |
| C98 | Triangulate.v: the parallel loop as a fold over any permutation | invariant over the processed prefix |
| C99 | Hem.v: boundary edges from the cell mask, xor of the two sides; adaptive mode; translation to the volume | set membership, parity by cases on the four cells around a vertex |
| C100 | Hem.v: half-edges as (cell, vertex) pairs; ties by common grid cell | intersection over prefixes = cells of all vertices |
| C101 | Gen3.v: numbering loop over the slices, insertion into the face map | induction on the slices, sorted-map lemmas |
| C102 | Gen3.v: loops of a slice (library results as data), keys of axis-aligned input faces | smallest-edge keys of rotations; counterexample |
| C103 | Gen3.v: generate's reindexing | places in a sorted map |
| C104 | Gen3.v, Vertex.v: possible_cells_cell | intersection of possible cells = closed-cell containment |
| C105 | Gen2.v: loops filtered by area and active mask, ownership map | shoelace area of loops in a cell; sorted-map folds; counterexample |
| C106 | Gen2.v: directed-edge map and per-face signs | last-wins map of directed edges, cyclic telescoping sums |
| C107 | Regions2.v: union-find over cells and cut edges, renumbering | nodes-behind argument, renumbering invariant of PropsRegions.v; counterexamples |
| C108 | Hodge3.v face_volumes3: shoelace per plane face, barycentric share per mesh piece, exterior tail; uninitialised entries are None | vector-area telescoping, C70 column sums, C54; counterexamples |
| C109 | Hodge3.v dual_edge_lengths3: ordered writes to a zero vector, exterior tail with None for unwritten entries | last-write lemmas, ownership grid of the renumbered cubes; counterexample for all generated meshes |
| C110 | Hodge3.v hodge_dual2 / hodge_primal2 with Eigen's size check | entrywise; counterexamples |
| C111 | Hodge3.v matrices with sizes; product undefined on mismatch | counting faces against cells (injection of cells into low faces); refuted |
| C112 | Hodge3.v cell_volumes3 with the id offset of AdaptiveGrid::cell_volumes | positions of renumbered cubes; C58 for the total |
| C113 | BaryMap.v barycentric_map, cut_vertices over crossings of C14 | rows as sums over carriers; C74 bound for edges |
| C114 | BaryMap.v edge_edges, face_edges, stl_edges, serial in-triangle loop; interleavings of C76 | set insertion lemmas; membership equivalence |
| C115 | BaryMap.v get_face_bary, external solver as parameter | C77, C79 |
| C116 | Generator.v add_edges, set_edges, clear; call sequences | invariant on the edge map: a gap, once made, stays |
| C117 | Generator.v slot_table, gen_V, gen_vertex, vertex_reindexer, compact_vertices | C14, writes into the table |
| C118 | Generator.v generate_vertices, generate_edges2/3, mesh_cut_edges | C14, C74, C77 |
| C119 | Generator.v gen_edges, edge_slice, axial_edges | folds over ordered sets and maps |
| C120 | Validation.v region_tally, count_checks, boundary_checks, face_check, paired_boundary | counting folds; acceptance characterised, counterexamples |
| C121 | Validation.v grid_cell_volumes, grid_cells_count | fold over an ordered map |
| C122 | Validation.v unindexer, region_sums, region_volumes | order of first appearance |
| C123 | Validation.v volume_loop, volume_check, brep_region_volumes | induction on the regions / triangles |
| C124 | Validation.v valence_keys, exterior_grid_valences, own_at | counting fold; C25 for the ownership grid |
| C125 | Validation.v pcwn_count | induction on the cells |
| C126 | Validation.v grid_face_projection, cut_face_entries, bary_utilized, grid_utilized | C26, C55, C70 |
| C127 | GenChecks.v area_normal, unused_faces, check_face_utilization, check_cell_containment, gen_face_masks | algebra (cross products), exact characterisation of the erased set, fold over masks; refutations on triangles, quads and in-plane faces |
| C128 | BakeCells.v set_externals, kept_cells, sign_external, bake_cells, bake3 (composition of CellCollapser, ExternalBoundary, AdaptiveFactory, AdaptiveGrid, Regions) | C20, C22, C24, C26, C40, C50 plus a bisimulation of the labelling's touch relation with geometric neighbourhood |
| C129 | Wedge.v around_order (projection of the normals, axis choice, flip) feeding CellCollapser.collapse; WedgeSpec.v states next-face geometry without axes | the projection preserves turns up to a positive factor; a list sorted by angle has geometric neighbours as cyclic neighbours (both directions); composed with C21. Refuted for edges < 1e-8 |
| C130 | Slices.v flag, flag_cell, slice_masks, slice_edges, slice_boundary | invariant of the flagging fold; composed with C49 (touched cells), C99 (boundary edges), C119 (axial edges) |
| C131 | Centroid2.v curve_centroid (external formula), brep_centroid2, centroids2 | any triangles whose sides are the loops' sides plus inner sides used in both directions have the same area and moments (antisymmetric sums over permutations); hull by a weighted mean argument; composed with C38 |
| C132 | Centroid2.v triangulate2, triangulate_triangle2, faces2_input | fan fills the loop by induction; case analysis of the code paths; external triangulators are parameters |
| C133 | Gen2Whole.v generate2 (composition of Gen2.v, ExternalBoundary.v, Regions2.v) | the external half-edge mesh is described by the record `subdivision`; geometry of one edge (inside a cell or between the two cells at a grid line, one of them on the left); half-edges with a cut cell on the left = sides of kept faces; sums over the incidence map; composed with C38, C50, C64, C105-C107; the L-shaped region by computation |
| C134 | Gen3Whole.v generate3 (composition of BakeCells.v and Gen3.v) | what compute_faces leaves is the record `stage_ok`; positions of faces = ids in order (C103), so cells, external boundaries, regions transfer from C128; a face inside the domain holds both its cells through both removal passes, C20 gives the two sides; composed with C73 (row sums; a folded face's row is +-1, and the quadratic form is positive), C82, C84; a flap and a tetrahedron inside one cell by computation |
| C135 | Incidence3.v cell_faces, boundary_faces, cutcell_triplets, face_boundary, *_grid_cell_index | folds as sets; coefficients compared with C73's; composed with C134 for generated meshes |
| C136 | Incidence3.v face_centroid, square_center, boundary_centroid, face_centroids | sums over loops; mass centre of a polygon defined by triangle fans; exterior part uses C24-style face geometry of PropsAdaptive2 |
| C137 | FaceStage.v offsets, shifted, plane_faces, compute_faces, faces_to_mesh | numbers of the slices as running offsets, disjointness of ranges by induction over the slices; the rest by C101-C104 and C134; refuted for a slice without a cell and for negative-facing coplanar pieces |
| C138 | ExportObj.v used_cells, used_faces, face_triangles, obj_parts, write_obj, region_indices, obj_main | rows of the boundary operator of C73 applied to the constant vector: inner rows cancel, border rows are one sign; orientation by the cross product of grid points; refuted for the selection, the options and the orientation of uncut squares |
| C139 | Laplace.v diag_mat, open_boundary, example_laplacian | B^T diag(w) B with the mask of C51 folded into the weights; quadratic form over faces; kernel from a sum of nonnegative terms |
| C140 | Laplace.v max_coeff3, put_q, example_divergence | induction over the renumbered exterior cells; constants in the kernel of a symmetric matrix give the compatibility condition; refuted by concrete meshes |
| C141 | Laplace.v pcg_init, pcg_step, pcg_loop, pcg_solve, forward, backward, ldlt_apply, example_pressure | invariant: residuals and directions so far are conjugate; n+1 vectors on n indices are dependent; triangular solves are adjoint to each other |
| C142 | Laplace.v fix_indefiniteness | induction over the columns; row sums split by empty and non-empty columns |
| C143 | Ldlt.v | invariant over columns giving the recurrences of all entries; positivity from the guard on the pivots; 2x2 counterexample |
| C144 | Ldlt.v | induction over rows and entries; triangular substitution identities |
| C145 | CutFile.v (writer), PlCurve.v (reader), on mesh2 | block-by-block specification of the file; facet rows by cases over the facet list (C34); read-back through C47; count of facets for the refutation |
| C146 | DrawCurve.v (PLCurve2 as a list of curves, operations, edges, save), PlCurve.v (reader) | edge set characterized by position in the list of curves; histories by induction over the operations; read-back through C47 |
| C147 | FrontEnd.v unique_triangles (std::sort + std::set) | set of sorted triples; refutation by the smallest vertex and its smallest neighbour |
| C148 | FrontEnd.v tok_round, parse_3toks, parse_shape on lists of characters, npos as None | lemma per round on a string split in blanks, word, rest; every string is one of six cases |
| C149 | FrontEnd.v recenter, normalized, place_mesh, domain_box (exact arithmetic) | tight bounds are unique and move with a similarity |
| C150 | FrontEnd.v region_counts (std::map<int,int>), outside_report | invariant of the counting fold; nth_error characterization |
| C151 | MergeFaces.v: merge_faces, volumes, is_inside, the second disjoint set and its renumbering | the volume of an id is the shoelace area of its loop (loops from C18); joins = containment relation by sortedness and the early break; union-find invariant for the partition; relabelling lemma for faces(); three nested squares as counterexample |
| C152 | GuiSession.v: gui, update_grid, set_bbox, update_vertices_and_bbox, update_mesh_and_bbox, create; a frame = the values typed; grid and box functions and float rounding are arguments | case analysis of a frame (pointwise min/max specification); induction over the history for grid = grid of the values shown, level, and order of the box; refuted: positive size |
| C153 | GuiSession.v: the window of make_cutmesh_gui as a transition system on events, over Deform.v's constructor | invariant `fresh` (the generator's inputs are those of a new constructor on the values shown); simulation between a session and the session without box events; characterization of failing sessions; last-make decomposition for saves; fold characterization of the plane map |
| C154 | SliceCap.v: vertex table, edges in the plane, cap and result of SliceGenerator::slice; half-edge mesh and triangulation libraries as arguments with stated contracts (ear_ok, cells_ok) | from the crossings theorem (C27), the embedding (C94) and the triangulation's vertex set; induction over the cells; concrete bipyramid for orientation |
| C155 | EdgeCurves.v: face_edges, edge_to_plcurves; mtao's unique_simplices and curve tracing as arguments with stated contracts (traces); areas exact | face_edges by induction over the half-edge map; the faces of a polygon from the face-identity theorem of FaceCollapserIds (reachability along successors); the filter from the shoelace sum under permutation and reversal |
| C156 | Viewer2D.v: the window's state and thirteen events over Mesh2.v and DrawCurve.v; generator, ear clipping, stacking, winding numbers and solver as arguments; GL buffers are the data put into them | one frame lemma per update, then invariants by induction over the events; the refuted parts by computing one step from any such state |
| C157 | Viewer2D.v: edge_flux, facet_flux, rhs, update_colors; exact numbers, a NaN colour counts as 0 as the code's select makes it | fluxes by position in the concatenated vector; the scaling from the maximum of absolute values (fold invariant) |
| C158 | ExplodedViewer.v: the window's state and eleven events over Exploder.v; slicer as an argument, NaN kept apart; GL buffers are the data put into them | invariant (buffers fresh) over the events from one lemma on the pass over the regions; the colours by cases on the remainder mod 7 |
| C159 | AdaptiveEdges.v: the edge masks as lists of writes, get_edges, compute_edges, the boundary edges with out-of-range reads as None | exact set of edges by the last write to each mask entry; cells and completeness from the emitted cells' characterisation; refutations by computation |
| C160 | MeshViewers.v: the windows' state and events, the slicer's plane and slice, the extractor's lines and exit status | induction over the history; nearest number in the range as specification of the clamp; a reader of the written lines |
| C161 | Mesh2.v grid_boundary_edges, ExteriorGrid.v facets | exact set from the enumeration of the cut edges and C34's exact facet list |
| C162 | AdaptiveGrid.v boundary_face_mask / grid_boundary_face_mask, PropsFaceMask.v db_boundary_face_mask / db_interior_face_mask | C57's dual pairs for inner faces and C51's characterisation of border faces; witness of seven cells after renumbering |

Properties added later carry their plan in `properties.jsonl` and the header of their Props file. No property of the list is
impossible to express in the model; what is left out of a property (rounding, external triangulation, data races) is named in its MANIFEST note.

## Trusted base

* **Coq 8.16.1's kernel** (and `coqc`'s loading of the standard library). Only the standard library is used (ZArith, QArith/Qcanon, Lists,
  Permutation, Sorted, Lia, Lqa, Ring, Field). No ssreflect, no Equations, no plugin of our own.
* **Assumptions**: `Print Assumptions` prints `Closed under the global context` for every theorem named in MANIFEST.json (checked mechanically for all of
  them): no axiom at all, not even a standard-library one. (A scan of loaded libraries can mention constants of `Coq.ssr.ssrunder`; these are
  module-type fields of a library that Lia/ring load, no theorem rests on them.) Section variables and hypotheses are used inside sections only and are
  universally quantified in the exported statements.
* **Faithfulness of the transcription**: every definition cites the file and lines it models; simplifications are named in that comment.

### What is assumed about code outside /repo (mtao core, Eigen, protobuf, std)

* `std::map/std::set`: strictly sorted, `emplace/insert` keep the first, `operator[]=`/`insert_or_assign` overwrite. `std::sort` yields some permutation sorted by
  the comparator (where the order of equal elements matters, the theorem quantifies over it).
* mtao `Grid/StaggeredGrid`: row-major `index`/`unindex`; cell shape = vertex shape - 1; `world_coord(p) = origin + dx*p`, `local_coord(p) = (p-origin)/dx`,
  `coord(p)` = floors of the local coordinates; `bbox` = origin .. origin + dx*cells; `local_vertices()` in index order; `form_volumes<1>` = dx.
* Eigen `setFromTriplets` sums duplicates; matrices read out of range are undefined behaviour (`None`), never a value.
* mtao `DisjointSet`: a union-find; the theorems quantify over all choices of representative/link direction.
* `cyclic_order` (mtao, order of faces around an edge) is any cyclic order in C20-C22, and in C129 any order by counter-clockwise angle from an arbitrary ray; winding numbers / solid angles, `levelset::fraction_inside`, the
  triangulation libraries, the per-cell meshes of MeshExploder and the text format of numbers are parameters of the theorems.
* `curve_volume` = signed polygon area; the sign convention of `tet0` volume = det/6.
* protobuf: in-memory messages keep their fields; map iteration order is arbitrary; the wire format is not modelled.
* `MANDOLINE_USE_ADAPTIVE_GRID` is defined, as in the build.

### Modelling choices that weaken what the theorems say about the binary

* doubles are exact rationals: rounding, NaN and infinity are not modelled (a division by zero is `None` or excluded by hypothesis); `1e-10`, `1e-8`, `.5` are exact.
* integers are unbounded; memory is unbounded; exceptions other than the modelled `.at`/assert outcomes are not modelled.
* pointers into containers (crossings, triangle intersections) are represented by values or positions; where the code orders by pointer address the order is arbitrary.
* parallel loops: modelled as arbitrary interleavings of the atomic critical sections (C49, C76) or, where iterations touch disjoint data, as independent
  computations; data races on `vector<bool>` and memory-model effects are outside the model.
* `bake()` of the 3D generator is a function of the generator's inputs in C46.

### Modelled and not modelled, by file

| /repo | model |
|-------|-------|
| include/mandoline/coord_mask*, coordinate_masks | CoordMask.v (complete) |
| include/mandoline/vertex*, line*, mask geometry | Vertex.v, VertexTypes.v, Line.v (complete but for printing) |
| include/mandoline/construction/subgrid_transformer | SubGrid.v (complete) |
| include/mandoline/construction/facet_intersections*, cutdata* | EdgeBake.v, CutEdges.v, TriBake.v, Crossings.v, BaryMap.v; life cycle CutLife.v; not: triangulation of cut faces, vptr printing |
| src/construction/face_collapser, cell_collapser | FaceCollapser.v, AngleSort.v, CellCollapser.v, Wedge.v, MergeFaces.v (complete; the winding number test and std::sort are arguments) |
| src/construction/adaptive_grid_factory, src/adaptive_grid* | AdaptiveFactory.v, AdaptiveGrid.v, AdaptiveEdges.v (the factory's edge masks, a public call nothing in /repo makes) |
| include/mandoline/exterior_grid*, src/exterior_grid* | ExteriorGrid.v (complete) |
| src/construction/generator* | ActiveMask.v, ExternalBoundary.v, Regions.v, SmallestEdge.v, GridEdges.v, Deform.v, Hem.v, Gen3.v, Gen2.v, Regions2.v, Generator.v, GenChecks.v, BakeCells.v, Slices.v, FaceStage.v; not: the half-edge mesh library |
| src/mesh2.cpp, src/mesh3.cpp, cutface*, cutcell* | Mesh.v, Mesh2.v, Volume.v, Queries3.v, Triangulate.v, Centroid2.v, Gen2Whole.v, Gen3Whole.v, Incidence3.v, Proto.v; not: wavefront output (src/cutface.cpp is not in the build; cutface2.cpp and cutface3.cpp are) |
| src/operators/*, src/diffgeo* | Interp.v, Boundary3.v, Mesh2.v, Diffgeo.v, Volume.v, Surface2.v, Hodge3.v (complete; matrix products and triangle areas are external) |
| tools/validation/* | Validation.v; not: cut_normals_match_parents, main and printing; libigl's winding number and extract_cells are parameters |
| tools/cutmesh_to_obj.cpp | ExportObj.v; not: argument parsing, file names, compactify beyond dropping unused vertices, the code after the early return in main except the three writers |
| examples/laplacian/setup.cpp, examples/laplacian/solver.hpp, src/diffgeo_utils.cpp:82-94 | Laplace.v, Ldlt.v; not: flux and the random right-hand sides (computed and dropped, or after an early return), remove_noair_kernel and solve_SPSD_system (disabled branch), the GUI |
| examples/curve_drawing_2d/plcurve2.{hpp,cpp} | DrawCurve.v; not: load |
| examples/curve_drawing_2d/viewer2d_main.cpp | Viewer2D.v (state and events); not: GL objects, the printed text, the face collapser check of :122-129 |
| examples/exploded_mesh/main.cpp | ExplodedViewer.v (state and events); not: GL objects, the printed text |
| examples/viewer/cutmesh_viewer.cpp, examples/point_chaser/main.cpp, examples/slicer/main.cpp | MeshViewers.v (state and events); not: GL objects, colours, wireframes, the mouse picking |
| examples/extract_original_mesh/main.cpp | MeshViewers.v; not: the printing of numbers |
| tools/remove_self_intersections.cpp, cfg_to_cutmesh.cpp, make_cutmesh_from_cmdline.cpp, src/tools/cutmesh_info.cpp | FrontEnd.v (the ranges cited there); not: option parsing, file access, igl's remeshing, printing |
| src/construction/construct_imgui.cpp, tools/make_cutmesh_gui.cpp | GuiSession.v; not: Magnum/ImGui drawing, colours, timing output, mesh loading, StaggeredGrid3d::from_bbox and mtao bounding boxes (arguments) |
| src/tools/* (exploder, plcurve, imgui constructors) | Exploder.v, PlCurve.v, CutFile.v, Deform.v, Slicer.v, SliceCap.v, EdgeCurves.v; not: other tools, rendering, python bindings, examples |
