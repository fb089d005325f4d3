# Formal model of cutdigital/mcut in Rocq (Coq 8.16.1)

This file says what is modelled, how each property of `properties.jsonl` is stated and proved, and what has
to be trusted.  `MANIFEST.json` is the machine-readable index property -> theorems.

## Layout

Every area has up to four files in `rocq/theories/`:

| file | content |
|---|---|
| `XModel.v`  | executable Gallina definitions, each citing the file and lines of /repo it models; no proofs |
| `XSpec.v`   | the small independent specification the theorems are stated against (no use of the model's helpers) |
| `XProofs.v` | lemmas |
| `XProps.v`  | only the property theorems (`exact lemma`), their `Print Assumptions`, and non-vacuity examples |

Conventions: undefined behaviour, out-of-range accesses and exceptions are explicit outcomes (`None`/`Err`/`UB`
constructors), never totalised away.  Loops are structural recursion or fuelled recursion in which running out
of fuel is an error outcome that the theorems exclude.  Threads are interleavings of atomic steps.

## Trusted base

* Coq's kernel (8.16.1) and the OCaml runtime; `vm_compute` is used, `native_compute` is not.
* The axioms listed by `Print Assumptions` under each theorem (see section "Axioms").
* The reading of the C++ code: the model was written by hand from /repo at the pinned commit; nothing in it was
  extracted or executed against the code.  Default build configuration: `MCUT_WITH_COMPUTE_HELPER_THREADPOOL`
  defined, `USE_OIBVH` defined, `MCUT_WITH_ARBITRARY_PRECISION_NUMBERS` undefined, release build
  (`MCUT_ASSERT` is a no-op, `SAFE_ACCESS` is `.at()` and throws when out of range, other subscripts are unchecked; both are the
  outcome `None` in the model and excluded by the theorems).
* C++ semantics: 32-bit `int`, IEEE-754 binary32/binary64 with round-to-nearest-even and no excess precision,
  sequentially consistent atomics, `std::` containers behave as documented.

## Axioms

`tools/axioms.py` runs `Print Assumptions` on every theorem named in MANIFEST.json (349 theorems).  All axioms come from the
standard library: those of its real numbers, which Flocq's formats and the geometry over the reals depend on, functional
extensionality and, in proofs by contradiction over the reals and in Flocq, excluded middle.  Result:

* `ClassicalDedekindReals.sig_not_dec`, `ClassicalDedekindReals.sig_forall_dec`, `FunctionalExtensionality.functional_extensionality_dep`, `Classical_Prop.classic`:
  C01_broad_phase_exact, C02_node_slots_bijection, C02_build_out_of_bounds_refuted, C03_inner_boxes_are_hulls,
  C04_float_ancestor_exact, C04_above_bound_refuted, C05_morton_interleaves, C05_morton_injective,
  C23_candidates_match_partial, C23_stale_candidates_refuted, C26_bind_result, C26_nan_accepted_refuted, C43_orient2d,
  C43_orient3d, C43_orient2d_total, C43_orient3d_total, C43_double, C43_arithmetic_exists, C43_double_orient2d,
  C43_double_orient3d, C43_ordinary, C43_double_plus, C43_double_minus, C43_double_mult, C43_underflow_excluded,
  C50_moved_apart_accepted_refuted, C52_filters_hide_intersection_refuted, C64_planar, C64_total, C64_bent,
  C64_reported, C64_collinear, C64_bent_refuted, C64_size_refuted, C70_ties_refuted, C74_two_points,
  C74_two_points_case, C81_crossings, C81_whole_number, C81_outside, C81_outside_box, C81_reversed, C81_threads,
  C81_type_partial, C81_own_vertex_refuted, C81_case
* `ClassicalDedekindReals.sig_not_dec`, `ClassicalDedekindReals.sig_forall_dec`, `FunctionalExtensionality.functional_extensionality_dep`:
  C44_triangle, C44_polygon_partial, C44_polygon_defined_partial, C44_repeated_vertex_refuted,
  C44_singular_projection_refuted, C62_projection_partial, C62_even_odd_partial, C62_collapse, C62_triangle_refuted,
  C63_line_partial, C70_divided, C70_double_partial, C70_clipped, C70_case, C73_triangle_partial, C73_star_refuted,
  C73_triangle_case, C74_neighbours, C74_neighbours_case, C74_joined_partial, C74_simple_partial, C74_triangles,
  C74_notch_refuted, C74_joined_case, C74_triangles_case, C77_defined, C77_axis_refuted, C77_offset_refuted,
  C77_plane, C77_missed_refuted, C77_proper, C77_section_partial, C77_centred_partial, C77_covered_refuted,
  C77_tutorial_refuted, C77_case, C77_missed_case
* `ClassicalDedekindReals.sig_forall_dec`, `FunctionalExtensionality.functional_extensionality_dep`:
  C45_code_partial, C45_point_partial, C45_symmetric, C45_degenerate_refuted, C61_vertex, C61_edge, C61_even_odd,
  C61_crossing, C61_triangle, C61_spike_refuted, C63_coefficients, C63_triangle, C63_segment, C72_located, C72_case,
  C74_middle, C82_lists, C82_exact_partial, C82_other_side, C82_reported_partial, C82_lost_refuted, C82_case
* `ClassicalDedekindReals.sig_forall_dec`:
  C73_case, C73_violation_case
* `ClassicalDedekindReals.sig_forall_dec`, `FunctionalExtensionality.functional_extensionality_dep`, `Classical_Prop.classic`:
  C75_triangle
* the other 241: closed under the global context (no axioms).

## Modelled and not modelled

| code | modelled in | not modelled |
|---|---|---|
| bvh.h, bvh.cpp (OIBVH) | BvhModel | the sort itself (any permutation sorted by key), SSE paths, `USE_OIBVH` undefined |
| tpool.h: queue | QueueModel | spurious wake-ups other than those allowed by the model's `wait`; weak memory orders |
| tpool.h: threadsafe_list | LlistModel | weak memory orders; ownership of the entries (shared_ptr) |
| tpool.h: scheduling, parallel_for, partial sum, find | ParModel, ParSumModel, ParFindModel, HmeshParModel, ShareModel (several commands on one pool) | `parallel_transform` beyond parallel_for, join of worker threads |
| hmesh.h, hmesh.cpp | HmeshModel | `read_off`/`write_off`, reserve; descriptors do not overflow |
| preproc.cpp: client_input_arrays_to_hmesh | InputModel | coordinate conversion (perturbation arithmetic is in BvhModel/C06) |
| preproc.cpp: driver loop, flags, partitions | DispatchModel, ITypeModel, PartModel | the geometric search inside resolve_floating_polygons (oracle) |
| preproc.cpp: winding numbers, 1327-1587; tpool.h: mc_atomic_fetch_add | WindModel (exact reals, atan2 as the exact argument) | rounding; the triangulation of faces of more than four vertices is a parameter (see TriModel, C42) |
| kernel.cpp: source-mesh partitioning, 1194-1405, 6841-7660 | SeverModel | m1_ivtx_to_h (written, never read); that clipping delivers `sever_input`, `sever_points`, `sever_known`, `sever_reached` is a hypothesis |
| kernel.cpp: polygons above and below, 6632-6821 | SideModel (exact reals) | that the traced polygons, registry and curves form a scene (SideSpec `scene`) is a hypothesis; rounding of the scalar product |
| kernel.cpp: polygon soup and m0 (1579-1777), find_connected_components, extract_connected_components; edge-face pairs and intersection points (1779-1855, 2057-2117, 2394-2840), planes of the faces (2165-2332), joining them (1409-1495, 3385-3550), cut paths and floating polygons (3572-4139, 7746), dividing the edges (1498-1537, 4227-4850), clipping the faces (4859-5507), patches and their locations (6390-6617, 7797-8243, 8540-8618) | SoupModel, CompModel, ExtractModel, CutModel, SplitModel, ClipModel, PatchModel, PointsModel, JoinModel, AreaModel | the rest of the cutting algorithm (`dispatch`, l. 1136-10686): its output is an arbitrary oracle constrained by explicit hypotheses |
| frontend.h/.cpp, mcut.cpp: handles, contexts, state, debug log, events, data queries, seam sequences, triangulation queries | ApiModel, EventModel, DataModel, SeqModel, TriModel, SectionModel (planar sections) | constrained Delaunay triangulation of one face (oracle in TriModel) |
| math.cpp, math.h: orientation, segment/segment, segment/plane, line/plane, plane coefficients, projection, point in polygon | GeoModel (exact reals) | rounding in these functions |
| shewchuk.c (the compiled half, l. 1-4338): orient2d, orient3d and what they call | ShewModel (rounded reals) | exactinit, the `fast`/`exact`/`slow` variants, incircle, insphere (not called); NaN, infinities, signed zeros; the unused read one past the end of an expansion; contraction to fused multiply-add is assumed off |
| preproc.cpp: check_input_mesh (planarity), math.cpp: coplaner, collinear | PlanarModel (rounded reals) | - |
| cdt/*.h | - | all |
| timer.h, utils.h | - | all (logging, helpers) |

The header comment of every `XModel.v` states the simplifications of that area in detail.

## Per property plan

| id | what is modelled | how it is proved |
|---|---|---|
| C01 | `build_oibvh` (boxes, leaf order, level loop, linear memory), `intersectOIBVHs` (queue traversal, output map) | queue invariant: emitted + pending pairs is a permutation of the expected pairs; any leaf order |
| C02 | index functions of the implicit tree | arithmetic, key lemma size(m) = m + size(ceil(m/2)) |
| C03 | level loop of `build_oibvh` | induction over levels, hull = least box |
| C04 | binary32 computation of ancestors with Flocq's executable `BinarySingleNaN` | exactness of each operation from representability; a counterexample by `vm_compute` above the bound |
| C05 | `expandBits`, `morton3D` on binary32 incl. NaN/inf | finite sweep of 1024 values lifted with `forallb_forall`; case analysis for the clamp |
| C06 | enlarge / perturb with doubles as integers scaled by 2^-1074, round to nearest even | monotonicity of rounding |
| C07, C08 | `get_scheduling_parameters`, `parallel_for` blocks | arithmetic on div; refutation for the empty range (division by zero) |
| C09, C10 | two-lock queue as a labelled transition system over any number of threads | invariant over reachable states; lost wake-up exhibited as an execution |
| C11 | `parallel_partial_sum` | block-wise induction; race at return exhibited |
| C12-C16 | `hmesh_t` (vertices, half-edges, edges, faces, removed lists, iterators) | invariant over operation histories; frame lemmas; refutation with a concrete history for C15 |
| C17, C18 | `client_input_arrays_to_hmesh` sequential and parallel | induction on faces, reuse of C13/C14 |
| C19 | `find_connected_components` | BFS invariant, reachability |
| C20 | `extract_connected_components` | partition and map lemmas |
| C21-C23 | flag decoding and driver loop of `preproc` | exhaustive on bits; invariant of the loop with an oracle kernel |
| C24-C30 | API state machine of `frontend.cpp`/`mcut.cpp` | invariants over call histories; refinement to finite maps |
| C31-C35 | events, API threads, callbacks | LTS over interleavings, invariants; counterexample runs for the false ones |
| C36-C42 | `get_connected_component_data_impl_detail` | per-flag functions over byte-counted buffers; counterexamples for the false ones |
| C43 | ShewModel: `shewchuk.c` orient2d, orient2dadapt, orient3d, orient3dadapt with the error-free transformations and expansion sums and products they use, over any correctly rounding 53-bit arithmetic that may fail | expansions as lists whose components are multiples of a power of two above the sum of the lower ones (ShewExp, ShewScale); error analysis of every stage against the constants of the code (Shew2d, Shew3dBounds, Shew3dMain); array sizes from the number of components; ShewRange, ShewRange2: on coordinates of ordinary size every operation stays in the range of doubles, so double precision computes the same |
| C44, C45 | GeoModel: `math.cpp` segment/plane and segment/segment classification over the reals | case analysis on signs; the code against GeoSpec (points, segments, planes as sets); counterexamples for degenerate inputs |
| C61 | GeoModel: 2d point-in-polygon test | crossing sums are invariant when the point moves along a segment avoiding the vertices (sweep over strips between vertices); C61_even_odd quantifies over all directions |
| C62 | GeoModel: rotation and projection | determinant of the projection restricted to the plane; transfer of C61 along the linear isomorphism; counterexample on the cone |
| C63 | GeoModel: plane coefficients, segment and line against a plane | linear algebra over the reals |
| C64 | PlanarModel: `collinear`, `coplaner`, `is_coplanar`, the report of `check_input_mesh`, on top of ShewModel | C43 in double precision; a determinant identity for points of a plane; counterexamples evaluated by hand |
| C65 | CutModel: `bins`, `find_start`, `walk`, `paths`, `cut_paths` (kernel.cpp:3572-3759) | an invariant of the outer loop (the paths found are whole curves, the tables agree with them) and one of the inner loop (a simple chain from the start), for every iteration order of the hash map |
| C66 | CutModel: `properties`, `all_properties`, `proceed_to_fill_holes` (kernel.cpp:3794-3986, 7746) | by C65, with the registry of intersection points as a hypothesis (`recorded`) |
| C67 | CutModel: `floating_loop`, `polygon_loop`, `detect` (kernel.cpp:4024-4139) | by C65; the walk around the polygon is a chain that can only close on its first point |
| C68 | ClipModel: `clip` = `is_boundary`, std::partition (any conforming one as a parameter; libstdc++'s as `gnu_partition`), `first_boundary`, `exterior_walk`, `trace_one`, `trace_all` (kernel.cpp:4953-5395) | specification: the polygons are built by cutting and slitting one after the other (`clipped`); an invariant of that construction (every directed edge in one polygon, how polygons turn at every point, at most two ways out of a point) by induction; the tracing makes the same turns. Partial: fails if the tracing has to start at the mouth of a slit (`C68_slit_refuted`), and a conforming std::partition can make it follow an end iterator (`C68_partition_refuted`) |
| C69 | ClipModel: `retrace`, `trace_face`, `trace_block`, `merge`, `trace_blocks` (kernel.cpp:4904-5498) | the state after any number of faces and blocks is a function of the list of faces; by induction over faces and blocks |
| C70 | SplitModel: `sorted_vertices`, `add_pieces`, `local_edges`, `merge`, `divide_edges` (kernel.cpp:4227-4850, linear_projection_sort :1498-1537); SplitSpec: order along a segment, `split` | the tables after any prefix of the edges are functions of the list of the edges done (SplitProofs); the projections are increasing along the edge (SplitGeo: exact, and by monotonicity of rounding); composed with C68 in SplitClip; the tie of two projections is computed in Flocq (SplitTies) |
| C71 | PatchModel: `h_to_ply`, `seed_of`, `seeds_of`, `spread`, `flood`, `build_patches` (kernel.cpp:6390-6424, 7797-8108); PatchSpec: pieces of the cut mesh (`together`), `are_patches` | invariant of the flood fill: what is in the patch or queued is what has been reached (PatchProofs); every polygon is reached because the cut mesh is connected (PatchSeeds) |
| C72 | PatchModel: `adjacency`, `adjacency_matrix`, `product`, `colour`, `exterior_polygons`, `red_is_inside`, `locate_patches` (kernel.cpp:6459-6617, 8110-8243, 8540-8618; math.h:253-293); PatchSpec: `located`, `curves_cover`, `approaches` | an entry of the square of the matrix is positive iff there are two steps; the red patches are those reached by steps of two, i.e. by an even number of curves, which is parity of the location (PatchSeeds); shuffle = any permutation |
| C73 | PointsModel: pairs of an edge and a face (`pairs_of_block`, `merge_pairs`, `cull`), `test`, tables (`add_point`, `merge_tables`), threads (`step`, `execute`, `outcome`) (kernel.cpp:1779-1855, 2057-2117, 2394-2840); PointsSpec: `is_point`, `lies_on`, `lies_between`, `lists`, `found`; PointsGeo: `triangle_test` with the functions of GeoModel | tables as numbers of positions with a key, preserved by adding, shifting and merging (PointsProofs); invariant of the runs: every thread that is done has its tables or general position is violated (PointsRun); the triangle with C44, C61-C63; refuted by a six-pointed star |
| C74 | JoinModel: `registry_faces`, `update_neighbours`, `join_two`, `join_next`, `join_row`, `join_points` (kernel.cpp:1409-1495, 3385-3550), with `linear_projection_sort` of SplitModel; JoinSpec: `in_line`, `next_to`, `wanted`, `are_joined` | invariant: the edges are the pairs tried so far that are on exactly two faces (JoinProofs); the sorted row is the row or its reverse by C70's projection (JoinProps); refuted by a U-shaped face with a square in its notch; C74_two_points (JoinLine, JoinGeo): the weights of a point on the common line are affine functions of its parameter, the common part is where all six are not negative, each end is the zero of exactly one, and the results of the six tests are read off with C73_triangle_partial |
| C75 | AreaModel: `planes`, `insert`, `report_of`, threads (`step`, `execute`), `sequential` (kernel.cpp:2165-2332); AreaSpec: `names`, `table_of` | invariant of the runs (AreaProps); refuted for the first face of the cut mesh, and by the run in which the first future ends the loop |
| C76 | ShareModel: managers, helpers with a queue each, parts of loops, prefix sums and barriers (tpool.h:245-266, 393-471, 550-648, 716-792; frontend.cpp:3334-3475); ShareSpec: `stuck`, `all_ended`, `conflict` | invariant (ShareInv), progress of the oldest section (ShareProgress, ShareEnd), a stuck state reached for every conflict (ShareStuck); exact condition in ShareProps; refuted for two triangulation queries |
| C77 | SectionModel: `triangle` (frontend.cpp:697-863) with `gather`, `other_vector`, `centroid`; SectionSpec: `hull`, `height_of`, `mean`, `box_of`, `foot` | orthonormal frame of the plane (SectionProofs, SectionTri), linear functionals on convex hulls (SectionProps); refuted by examples in SectionCases and for all offsets |
| C78 | LlistModel: threadsafe_list, one step per lock, unlock and pointer access (tpool.h:873-969), any number of threads with any programs; LlistSpec: `one_by_one` (the calls on a plain list), `of_thread`, `holds`, `linked`, `pushes`, `calls` | invariant over a belt (LlistBelt): nodes and walking threads in one row, in which each walking thread stands between the nodes it has locked; the list that the calls entered so far come to is what the belt comes to when every remover on it has gone to its end (`settle`); frame lemmas for a step of one thread (LlistInv), one lemma per step (LlistStep), cost of the steps left, last thread on the belt can go on (LlistEnd). Not covered: predicates that use the list themselves, destruction of the list, exceptions from the predicates |
| C79 | `release` (LlistSpec, frontend.cpp:3712-3776) as two calls on the list of C78 | partial: counterexample run of two threads; for all histories, a look-up after the removal finds nothing |
| C80 | SoupModel: the polygon soup, its four tables and the auxiliary mesh `m0` (kernel.cpp:1579-1777), on the half-edge mesh of C12 with the blocks of C07; SoupSpec: `union`, `tables`, `vertex_copy` | a mesh without free slots is the result of inserting its faces (`built_on` of C17); insertion of the shifted faces cannot clash; the writes of the threads are a permutation |
| C81 | WindModel: solid angles of triangles and quadrilaterals, sum over faces, compare-and-swap sum of the threads (preproc.cpp:1327-1587, tpool.h:1024-1030); WindSpec: signed crossings of a ray, closed surface | the argument of a product of three unit spinors is a cocycle up to full turns: the angle of a triangle is the sum of the angles of its edges with the direction opposite to the ray, plus a full turn exactly if the ray crosses it (WindCocycle, WindRay); the edge terms cancel on a closed surface; a generic ray exists (finitely many planes do not cover the space, WindGeneric); a dented tetrahedron for the refutation (atan t <= t) |
| C82 | SideModel: the loop that lists the source polygons above and below (kernel.cpp:6632-6821), on the halfedges and registry of C71; SideSpec: arrives from the front, polygon across, location of a component | invariant over the visited sides; the other side by linearity; composed with C20; counterexample traced by the clipping of C70 and run through the extraction of C20 |
| C83 | SeverModel: flags, m1 and its first edges, next/previous, `resolve`, the walk (`step`, `walk`, `sequences`, `partition`), `severed` (kernel.cpp:1194-1405, 6841-7660); SeverSpec: `sever_output`, `sever_apart` | invariant of the walk over the edges made so far (SeverWalk: `inv`), a second one for the vertices of the corners (`sep`); counterexample with a slit and two iteration orders; the walk ends (SeverTotal): each turn marks a key, and what no start condition accepts any more is done because done goes round a polygon, and what was pushed is done because the stack is empty; counterexample where a piece in the middle is not reached |
| C46 | queue termination flag and `disrupt_wait_for_data` (same transition system as C09) | invariant; a worker inside `wait_for_data` can always take a step after shutdown |
| C47 | `parallel_for` with a throwing body | block analysis |
| C48 | `parallel_find_in_map_by_key`, `barrier_t` as a transition system | invariant over interleavings |
| C49 | `std::distance`/`operator+=` of the mesh iterators under `parallel_for` | counting lemma; counterexample for faces |
| C50 | same driver model as C22 | loop invariant relating the count handed to the kernel to the number of perturbations |
| C51 | `mesh_is_closed` on the mesh of C17 | mesh built from arrays is simple, its half-edges with faces are the directed edges of the faces |
| C52 | `check_and_store_input_mesh_intersection_type`, the end of `preproc` | case analysis; winding numbers are a parameter |
| C53 | event records of the API state machine | the event table is a fold over the history |
| C54 | `get_info_impl`, `get_event_info_impl` over byte buffers | case analysis over items; counterexamples for the items that ignore the buffer size |
| C55 | argument checks of `mcEnqueueDispatchPlanarSection` on bit patterns of doubles | case analysis |
| C56 | the transition system of C31-C35 | a measure that every step of a manager thread lowers; the least pending command can always move |
| C57, C58 | the same system with context release and crash states | invariants on released events and contexts; counterexample runs |
| C59 | the part of `resolve_floating_polygons` that changes the mesh; geometry as an oracle | ring lemmas for remove_face/add_face, invariant over the loop of `preproc` |
| C60 | the loop of `preproc` around the kernel: rebuilt cut mesh, tables, candidate pairs | invariant; a concrete run for the refutation |
