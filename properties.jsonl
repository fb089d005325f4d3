{"id": "C01", "title": "Broad phase reports exactly the overlapping face pairs", "statement": "When a dispatch looks for potentially intersecting polygons, a source-mesh face and a cut-mesh face are listed as candidates for each other (once in each direction) if and only if their axis-aligned boxes overlap (closed overlap); no overlapping pair is lost, none is duplicated and nothing else is listed.", "quantifier": "every pair of meshes with 1..2^23 faces, every face order produced by the Morton sort, every assignment of boxes", "why_tests_cant": "a lost pair depends on the shape of an implicit tree whose levels are incomplete for every non power-of-two face count; no finite set of meshes covers all counts and orders", "anchors": ["source/bvh.cpp: build_oibvh, intersectOIBVHs, get_node_mem_index", "include/mcut/internal/bvh.h"]}
{"id": "C02", "title": "Every BVH node has its own slot inside the node array", "statement": "For every face count up to 2^23 the linear storage index computed for the real nodes of the implicit tree is a one-to-one map onto 0..size-1 where size is the number of boxes allocated, so building or traversing the hierarchy never reads or writes outside the array and never overwrites another node; the bound matters, above it a leaf is written out of range.", "quantifier": "every face count in 1..2^23 and every real node of the tree; a witness face count above", "why_tests_cant": "index arithmetic mixes popcount, bit smearing and truncated 32-bit float division; exhaustive testing over all counts and nodes is infeasible", "anchors": ["source/bvh.cpp: get_ostensibly_implicit_bvh_size, get_node_mem_index, get_level_rightmost_real_node, next_power_of_two"]}
{"id": "C03", "title": "Inner boxes are exactly the hull of the leaves below", "statement": "After the hierarchy of a mesh is built, the box stored for each inner node is the smallest axis-aligned box containing the boxes of all the faces below it; in particular the root box (used for the overlap/winding tests of the dispatch) is the hull of all the face boxes.", "quantifier": "every mesh with 1..2^23 faces, every node of the tree", "why_tests_cant": "a hull that is too small only matters for particular geometry; must hold for every node of every tree", "anchors": ["source/bvh.cpp: build_oibvh", "include/mcut/internal/math.h: bounding_box_t"]}
{"id": "C04", "title": "Single-precision tree arithmetic is exact below 2^24 nodes and wrong above", "statement": "The level/ancestor index computed with 32-bit floats equals the integer quotient (i+1)/2^d - 1 for every node index i < 2^24 - 1 and every level distance d; above that bound rounding yields a wrong node.", "quantifier": "every node index below 2^24-1, every level distance; a witness above the bound", "why_tests_cant": "rounding errors appear only at particular large indices", "anchors": ["source/bvh.cpp: get_level_rightmost_real_node, get_node_ancestor, is_real_implicit_tree_node_id"]}
{"id": "C05", "title": "Morton codes are the bit interleaving of clamped coordinates", "statement": "For any three float inputs, including NaN and infinities, the spatial sort key is a 30-bit number whose bits are those of the three quantised coordinates (each clamped to 0..1023) interleaved x,y,z; distinct quantised triples give distinct keys and no out-of-range float-to-integer conversion occurs.", "quantifier": "all triples of binary32 values", "why_tests_cant": "2^96 inputs, NaN/inf arise only from degenerate (flat) meshes", "anchors": ["source/bvh.cpp: expandBits, morton3D"]}
{"id": "C06", "title": "Broad phase stays conservative under perturbation", "statement": "The candidate list computed once from the cut-mesh enlarged by the perturbation bound still contains every pair of faces whose boxes overlap after the cut-mesh has been translated by any vector whose components are bounded by that bound, with double additions rounded to nearest; so no rebuild is needed after perturbing.", "quantifier": "all meshes, all perturbation vectors within the bound", "why_tests_cant": "random perturbations sample a continuum", "anchors": ["source/preproc.cpp: preproc (perturbation, build_oibvh with relative_perturbation_constant)", "include/mcut/internal/math.h: bounding_box_t::enlarge"]}
{"id": "C07", "title": "Parallel loops process every element exactly once", "statement": "For every non-empty range, every pool size and every grain size the blocks handed to the workers and to the calling thread are disjoint, contiguous, in order and cover the range exactly once; the work therefore equals the sequential loop.", "quantifier": "every range length in 1..2^32-1, every number of pool threads, every minimum grain", "why_tests_cant": "off-by-one errors depend on the relation length/threads/grain; only a few machine sizes can be tested", "anchors": ["include/mcut/internal/tpool.h: get_scheduling_parameters, parallel_for"]}
{"id": "C08", "title": "Parallel loops reject empty ranges gracefully", "statement": "Calling a parallel loop on an empty range performs no work and terminates normally.", "quantifier": "every pool size and grain, range length 0", "why_tests_cant": "undefined behaviour (division by zero) may go unnoticed in a test run", "anchors": ["include/mcut/internal/tpool.h: get_scheduling_parameters, parallel_for"]}
{"id": "C09", "title": "Task queue is a FIFO under every interleaving", "statement": "Tasks pushed to a worker queue are popped exactly once and in push order, for any number of concurrent producers and consumers and any interleaving of their atomic steps.", "quantifier": "every interleaving of any number of push / try_pop / wait_and_pop operations", "why_tests_cant": "schedules cannot be enumerated by tests", "anchors": ["include/mcut/internal/tpool.h: thread_safe_queue"]}
{"id": "C10", "title": "A worker waiting on an empty queue is woken by a push", "statement": "Whenever a task has been pushed and the pusher has finished, no consumer of that queue stays asleep with the queue non-empty.", "quantifier": "every interleaving of one producer and one consumer", "why_tests_cant": "lost wake-ups need a precise interleaving", "anchors": ["include/mcut/internal/tpool.h: thread_safe_queue::push, wait_for_data"]}
{"id": "C11", "title": "Parallel prefix sum equals the sequential prefix sum", "statement": "The face-offset table computed in parallel equals the sequential prefix sums of the face sizes for every thread count, once all the worker blocks have finished; and it has that value when the call returns.", "quantifier": "every array, every number of threads, every schedule", "why_tests_cant": "a race shows only under particular schedules", "anchors": ["include/mcut/internal/tpool.h: parallel_partial_sum"]}
{"id": "C12", "title": "Half-edge connectivity invariants hold after any edit history", "statement": "After any sequence of vertex, edge and face insertions and of face/edge/vertex removals allowed by the API, opposite is an involution without fixed points, each edge consists of exactly its two half-edges, next/prev are mutually inverse around every face, and each half-edge of a face points back to that face.", "quantifier": "every finite history of operations on a mesh of any size", "why_tests_cant": "invariants must survive every history, including slot reuse after removal", "anchors": ["source/hmesh.cpp: add_vertex, add_edge, add_face, remove_face, remove_edge, remove_halfedge, remove_vertex", "include/mcut/internal/hmesh.h"]}
{"id": "C13", "title": "A face that is accepted can be read back", "statement": "If inserting a face with a given vertex list succeeds then reading the vertices around that face returns the same cyclic sequence, its half-edges run between consecutive vertices, and all the faces, vertices and coordinates that existed before are unchanged.", "quantifier": "every mesh reachable by insertions and every vertex list", "why_tests_cant": "depends on the whole history of shared edges", "anchors": ["source/hmesh.cpp: add_face, get_vertices_around_face, get_halfedges_around_face"]}
{"id": "C14", "title": "Insertability test agrees with insertion", "statement": "A face is reported as insertable exactly when inserting it succeeds.", "quantifier": "every reachable mesh and every vertex list with at least 3 distinct vertices of the mesh", "why_tests_cant": "needs all meshes", "anchors": ["source/hmesh.cpp: is_insertable, add_face"]}
{"id": "C15", "title": "A rejected face leaves the mesh unchanged", "statement": "If inserting a face fails because an edge would become non-manifold, the mesh is observably the same as before the call.", "quantifier": "every reachable mesh and every rejected vertex list", "why_tests_cant": "failure paths depend on which edge of the list conflicts", "anchors": ["source/hmesh.cpp: add_face"]}
{"id": "C16", "title": "Counts and iteration agree", "statement": "Iterating over vertices, edges, half-edges or faces visits exactly the elements that were added and not removed, each once and in increasing descriptor order, and their number is the reported count.", "quantifier": "every history of insertions and removals", "why_tests_cant": "slot reuse and skipping of removed slots depend on the history", "anchors": ["include/mcut/internal/hmesh.h: array_iterator_t", "source/hmesh.cpp: number_of_*, *_begin, *_end"]}
{"id": "C17", "title": "Input arrays are accepted exactly when well formed", "statement": "Converting user arrays to the internal mesh succeeds if and only if every face has at least three vertices, all its indices are in range and pairwise distinct, and no directed edge is used by two faces (nor twice); then vertex i / face i of the internal mesh are vertex i / face i of the user, otherwise the dispatch reports an invalid value.", "quantifier": "every vertex/face array of any size", "why_tests_cant": "validity is a property of all arrays", "anchors": ["source/preproc.cpp: client_input_arrays_to_hmesh", "source/hmesh.cpp: add_face"]}
{"id": "C18", "title": "Multi-threaded conversion of input arrays equals the sequential one", "statement": "With any number of helper threads the parallel conversion accepts the same arrays and produces the same mesh as the sequential conversion.", "quantifier": "every array, every number of threads", "why_tests_cant": "thread counts and block boundaries", "anchors": ["source/preproc.cpp: client_input_arrays_to_hmesh"]}
{"id": "C19", "title": "Connected components of a mesh are computed correctly", "statement": "Two faces get the same component number exactly when they are joined by a path of mesh edges, component numbers are 0..n-1, the returned n is the number of components (isolated vertices included), and the vertex counts per component are exact; so an input mesh is rejected exactly when it is not one connected piece.", "quantifier": "every mesh of any size", "why_tests_cant": "graph reachability over unbounded meshes", "anchors": ["source/kernel.cpp: find_connected_components", "source/preproc.cpp: check_input_mesh"]}
{"id": "C20", "title": "Output components partition the traced polygons", "statement": "Splitting the traced polygons into connected components puts each polygon into exactly one component, with the same cyclic sequence of vertex coordinates, a component is marked above (below) iff it only contains polygons above (below) the cut-mesh, undefined iff it contains both, and unwanted locations are dropped; the recorded vertex and face maps send each element to the input element it stems from.", "quantifier": "every list of polygons, every above/below classification, every filter, every number of threads", "why_tests_cant": "quantifies over all meshes and classifications", "anchors": ["source/kernel.cpp: extract_connected_components"]}
{"id": "C21", "title": "Filter flags select connected components as documented", "statement": "Passing no filter flag behaves as passing all filter flags; with some filter flags, exactly the component kinds named by the flags are requested from the kernel.", "quantifier": "all 2^32 dispatch flag words", "why_tests_cant": "all bit combinations", "anchors": ["source/preproc.cpp: preproc (dispatchFilteringEnabled)", "include/mcut/mcut.h: McDispatchFlags"]}
{"id": "C22", "title": "The perturbation loop is bounded and reports what it applied", "statement": "A dispatch perturbs the cut-mesh at most the configured number of attempts, never perturbs unless general-position enforcement was requested, fails with an error when attempts are exhausted, and the perturbation vector reported for each connected component is the one added to every cut-mesh vertex in the final kernel run (zero if none).", "quantifier": "every sequence of kernel verdicts (success, general-position violation, floating polygon, error) and every attempts setting", "why_tests_cant": "kernel verdict sequences are unbounded", "anchors": ["source/preproc.cpp: preproc main loop"]}
{"id": "C23", "title": "Candidate list always matches the meshes given to the kernel", "statement": "Each time the cutting kernel runs, the candidate face pairs and face boxes passed to it were computed from the very meshes (same face numbering) passed to it, up to the perturbation.", "quantifier": "every sequence of kernel verdicts", "why_tests_cant": "needs particular verdict sequences (floating polygon then degeneracy)", "anchors": ["source/preproc.cpp: preproc main loop"]}
{"id": "C24", "title": "Handles are never reused", "statement": "Every handle returned for a context, event or connected component is non-null and differs from every handle returned before in the process, also after releases.", "quantifier": "every history of API calls (below 2^64 objects)", "why_tests_cant": "histories are unbounded", "anchors": ["source/frontend.cpp: g_objects_counter, create_context_impl, create_user_event_impl", "source/preproc.cpp"]}
{"id": "C25", "title": "Using a released or foreign handle is reported, not executed", "statement": "After releasing a context, event or connected component any call naming it returns MC_INVALID_VALUE and changes no API state; releasing twice is an error.", "quantifier": "every history of API calls", "why_tests_cant": "histories are unbounded", "anchors": ["source/frontend.cpp: *_impl", "source/mcut.cpp"]}
{"id": "C26", "title": "Bound state is read back", "statement": "A value accepted by mcBindState for a context is the value returned by mcGetInfo until the next successful bind of the same item; rejected values (non-positive constant or attempts, unknown item) return MC_INVALID_VALUE and change nothing; other contexts are unaffected.", "quantifier": "every history of bind/get calls on any number of contexts", "why_tests_cant": "histories are unbounded", "anchors": ["source/frontend.cpp: bind_state_impl, get_info_impl", "source/mcut.cpp: mcBindState, mcGetInfo"]}
{"id": "C27", "title": "Two-phase connected component enumeration is exact", "statement": "The count reported by mcGetConnectedComponents for a type mask is the number of live components whose type is in the mask, a second call with room for n handles writes exactly the first min(n,count) of them (newest first) and never more than n, and all are live handles of that context.", "quantifier": "every set of components, every mask, every n", "why_tests_cant": "all masks and histories", "anchors": ["source/frontend.cpp: get_connected_components_impl", "source/mcut.cpp"]}
{"id": "C28", "title": "Releasing connected components frees exactly the named ones", "statement": "mcReleaseConnectedComponents removes exactly the listed components (all when called with 0/NULL), leaves the others and their data untouched.", "quantifier": "every history", "why_tests_cant": "histories are unbounded", "anchors": ["source/frontend.cpp: release_connected_components_impl"]}
{"id": "C29", "title": "Debug filters are independent bit sets", "statement": "mcDebugMessageControl enables or disables exactly the selected sources, types and severities, and a message reaches the callback/log iff its source, type and severity bits are all enabled.", "quantifier": "all flag words and histories", "why_tests_cant": "all combinations", "anchors": ["source/frontend.cpp: debug_message_control_impl", "include/mcut/internal/frontend.h: dbg_cb"]}
{"id": "C30", "title": "Fetching the debug log respects the caller's buffer", "statement": "mcGetDebugMessageLog returns at most the requested number of messages and never writes more than bufSize characters in total.", "quantifier": "every log content, count and buffer size", "why_tests_cant": "all sizes", "anchors": ["source/frontend.cpp: get_debug_message_log_impl"]}
{"id": "C31", "title": "An enqueued command runs after all events in its wait list", "statement": "In every execution, a command that names events in its wait list starts only after each of these events' tasks has finished, and it is skipped when the first failing event of the list carries an error.", "quantifier": "every task graph and every schedule of the manager threads", "why_tests_cant": "schedules", "anchors": ["include/mcut/internal/frontend.h: prepare_and_submit_API_task", "source/frontend.cpp: wait_for_events_impl"]}
{"id": "C32", "title": "Commands of an in-order context run in submission order", "statement": "In a context created without out-of-order mode, enqueued commands start and finish one at a time in the order they were enqueued.", "quantifier": "every sequence of enqueue calls and every schedule", "why_tests_cant": "schedules", "anchors": ["include/mcut/internal/frontend.h: context_t, api_thread_main"]}
{"id": "C33", "title": "Errors propagate through the wait list", "statement": "If a command fails then a command that (transitively) waits on it is not executed and waiting for it reports the error.", "quantifier": "every task graph", "why_tests_cant": "graphs and failures unbounded", "anchors": ["include/mcut/internal/frontend.h: prepare_and_submit_API_task"]}
{"id": "C34", "title": "Event callback is called exactly once", "statement": "A callback registered on an event is invoked exactly once, after the event has finished, whether it is registered before, while or after the event finishes.", "quantifier": "every interleaving of registration and completion", "why_tests_cant": "interleavings", "anchors": ["include/mcut/internal/frontend.h: event_t::notify_task_complete, set_callback_data"]}
{"id": "C35", "title": "Waiting on a user event returns the status set by the user", "statement": "mcWaitForEvents on a user event returns the error code given to mcSetUserEventStatus.", "quantifier": "every interleaving of waiter and setter", "why_tests_cant": "interleavings", "anchors": ["source/frontend.cpp: set_user_event_status_impl, wait_for_events_impl"]}
{"id": "C36", "title": "Size query and data query agree", "statement": "For each kind of connected-component data, calling with a null buffer reports exactly the number of bytes that a call with a buffer of that size then fills, completely.", "quantifier": "every component and every query flag", "why_tests_cant": "all meshes and flags", "anchors": ["source/frontend.cpp: get_connected_component_data_impl_detail"]}
{"id": "C37", "title": "Data queries never write past the given byte count", "statement": "A data query with a buffer of b bytes writes at most b bytes or reports MC_INVALID_VALUE.", "quantifier": "every component, flag, byte count", "why_tests_cant": "overruns appear for particular byte counts only", "anchors": ["source/frontend.cpp: get_connected_component_data_impl_detail"]}
{"id": "C38", "title": "Face arrays are consistent", "statement": "The face-index array is the concatenation of the faces whose lengths are given by the face-size array, all indices are smaller than the vertex count, the adjacent-face arrays list exactly the faces sharing an edge, and the edge array lists each edge once with its two end points.", "quantifier": "every component", "why_tests_cant": "all meshes", "anchors": ["source/frontend.cpp: MC_CONNECTED_COMPONENT_DATA_FACE, FACE_SIZE, EDGE, FACE_ADJACENT_FACE"]}
{"id": "C39", "title": "Winding option reverses each face and nothing else", "statement": "With reversed winding order every face of the face-index array is the reverse of the same face with default order; face sizes, order of faces and all other data are unchanged.", "quantifier": "every component", "why_tests_cant": "all meshes", "anchors": ["source/frontend.cpp: get_connected_component_data_impl_detail (flip_winding_order)"]}
{"id": "C40", "title": "Vertex and face maps refer to the user's input", "statement": "A vertex map value is MC_UNDEFINED_VALUE for intersection or partition points, is an index of the user's source mesh when below its vertex count, and otherwise the user's cut-mesh index plus that count; similarly for faces, where a face created by polygon partitioning maps to the user's face it was cut from.", "quantifier": "every component and every partition history", "why_tests_cant": "all histories", "anchors": ["source/frontend.cpp: map_internal_inputmesh_face_idx_to_user_inputmesh_face_idx, MC_CONNECTED_COMPONENT_DATA_VERTEX_MAP, FACE_MAP"]}
{"id": "C41", "title": "Seam vertex sequences cover each seam vertex once", "statement": "The sequence array starts with the number of sequences, each sequence is preceded by its length and loop flag, consecutive vertices are joined by an edge, and each seam vertex occurs in exactly one sequence.", "quantifier": "every component", "why_tests_cant": "graph traversal over all seam graphs", "anchors": ["source/frontend.cpp: MC_CONNECTED_COMPONENT_DATA_SEAM_VERTEX_SEQUENCE"]}
{"id": "C42", "title": "Triangulation map lines up with the triangulation", "statement": "Entry i of the triangulation map names the face from which triangle i of the triangulation array was made, for either winding option and whichever of the two is queried first.", "quantifier": "every component, both winding orders, both query orders", "why_tests_cant": "all meshes and orders", "anchors": ["source/frontend.cpp: MC_CONNECTED_COMPONENT_DATA_FACE_TRIANGULATION, FACE_TRIANGULATION_MAP"]}
{"id": "C43", "title": "Orientation predicates return the exact sign", "statement": "orient2d (orient3d) returns a value whose sign is the sign of the exact determinant of its double arguments, in the absence of overflow and underflow.", "quantifier": "all double arguments", "why_tests_cant": "near-degenerate inputs are a vanishing fraction of 2^384", "anchors": ["source/shewchuk.c: orient2d, orient2dadapt, orient3d"]}
{"id": "C44", "title": "Segment/plane classification is geometrically right", "statement": "Given exact orientation predicates the segment-plane classification says p/q/r/0/1 exactly when the segment lies in, starts on, ends on, misses or properly crosses the plane of the polygon.", "quantifier": "all segments and polygons with a non-collinear vertex triple", "why_tests_cant": "all real configurations", "anchors": ["source/math.cpp: compute_segment_plane_intersection_type, determine_three_noncollinear_vertices"]}
{"id": "C45", "title": "2D segment intersection classification is geometrically right", "statement": "In exact arithmetic the classification e/v/1/0 of two segments says exactly whether they overlap collinearly, touch at an end point, cross properly or are disjoint, and the returned point is common to both.", "quantifier": "all quadruples of points", "why_tests_cant": "all real configurations", "anchors": ["source/math.cpp: compute_segment_intersection, Parallellnt, Between"]}
{"id": "C46", "title": "Shutdown wakes an idle worker", "statement": "After the pool (or context) sets its termination flag and interrupts the queue, a worker that was waiting for work, or that decides to wait later, never stays blocked: it returns from waiting.", "quantifier": "every history of the queue, every interleaving", "why_tests_cant": "a missed shutdown wake-up is a rare schedule", "anchors": ["include/mcut/internal/tpool.h: thread_safe_queue::disrupt_wait_for_data, wait_for_data, thread_pool::~thread_pool"]}
{"id": "C47", "title": "A failing loop body is reported to the caller of the parallel loop", "statement": "If the body of a parallel loop throws for some element, the call throws; if it returns normally, every element has been processed.", "quantifier": "every range, pool size and set of throwing elements", "why_tests_cant": "which thread gets the failing element depends on sizes and hardware", "anchors": ["include/mcut/internal/tpool.h: parallel_for"]}
{"id": "C48", "title": "Parallel search returns a match exactly when there is one", "statement": "The parallel search by key returns the position of a matching element if the sequence contains one and the end position otherwise, under every interleaving, and it never blocks for ever.", "quantifier": "every sequence, pool size and interleaving", "why_tests_cant": "interleavings of the done flag, promise and barrier", "anchors": ["include/mcut/internal/tpool.h: parallel_find_in_map_by_key, find_map_element_by_key, barrier_t"]}
{"id": "C49", "title": "Parallel loops over mesh elements skip removed slots", "statement": "A parallel loop over the vertices, edges, half-edges or faces of a mesh, some of which have been removed, processes each remaining element exactly once and ends.", "quantifier": "every mesh, set of removed elements, pool size and grain", "why_tests_cant": "depends on where the removed slots lie relative to the block boundaries", "anchors": ["include/mcut/internal/hmesh.h: array_iterator_t::operator+=, std::distance specialisation", "include/mcut/internal/tpool.h: parallel_for"]}
{"id": "C50", "title": "A perturbed configuration in which the meshes no longer intersect is not accepted", "statement": "With general-position enforcement, a dispatch that succeeds after perturbing the cut-mesh returns the components of an actual cut: a perturbation that moved the meshes apart is rejected and another one is tried.", "quantifier": "every sequence of kernel verdicts and every attempts setting", "why_tests_cant": "needs a degenerate configuration that the random perturbation separates", "anchors": ["source/preproc.cpp: preproc main loop", "source/kernel.cpp: dispatch (num_general_position_enforcement_attempts)"]}
{"id": "C51", "title": "An input mesh is called watertight iff every edge has two faces", "statement": "The watertightness used for patches, seams and the intersection type holds exactly if each edge of each face of the user's mesh is shared, in opposite direction, with another face.", "quantifier": "every accepted mesh", "why_tests_cant": "all meshes", "anchors": ["source/preproc.cpp: mesh_is_closed"]}
{"id": "C52", "title": "The intersection type describes the relation of the two meshes", "statement": "If the intersection type is requested, it is STANDARD exactly if the surfaces were found to intersect; otherwise it is INSIDE_SOURCEMESH (INSIDE_CUTMESH) exactly if that mesh is watertight and contains the other one, and NONE in all other cases - whatever filter flags were passed.", "quantifier": "every pair of meshes, every flag word", "why_tests_cant": "combinations of filters, closedness and enclosure", "anchors": ["source/preproc.cpp: check_and_store_input_mesh_intersection_type, preproc (haveStandardIntersection)"]}
{"id": "C53", "title": "Event queries report the command's progress and result", "statement": "mcGetEventInfo on a live event reports SUBMITTED, RUNNING or COMPLETE according to how far its command is, the result the command ended with (MC_NO_ERROR before), the command it stands for and the context it was enqueued on, and changes nothing.", "quantifier": "every history of API calls and command steps, every event", "why_tests_cant": "histories are unbounded", "anchors": ["source/frontend.cpp: get_event_info_impl", "include/mcut/internal/frontend.h: event_t, prepare_and_submit_API_task"]}
{"id": "C54", "title": "Info queries respect the caller's buffer", "statement": "mcGetInfo and mcGetEventInfo called with a buffer write at most the given number of bytes, all of them bytes of the queried item; a buffer of the size reported by the size query is filled exactly.", "quantifier": "every item, buffer size and history", "why_tests_cant": "all sizes", "anchors": ["source/frontend.cpp: get_info_impl, get_event_info_impl", "source/mcut.cpp: mcGetInfo, mcGetEventInfo"]}
{"id": "C55", "title": "A planar section with an offset outside (0,1) is refused", "statement": "mcEnqueueDispatchPlanarSection returns MC_INVALID_VALUE and does nothing unless the mesh arrays are non-null and large enough, the normal is not the zero vector and the offset lies strictly between 0 and 1.", "quantifier": "every argument combination, every double as offset", "why_tests_cant": "all doubles", "anchors": ["source/mcut.cpp: mcEnqueueDispatchPlanarSection"]}
{"id": "C56", "title": "Enqueued commands come to an end", "statement": "If every user event in use has been given a status, wait lists name earlier events only, no context is released and the process is alive, the library's threads cannot stop before every accepted command has completed or been skipped; and without further calls they take only finitely many steps.", "quantifier": "every task graph, every number of contexts and threads, every schedule", "why_tests_cant": "deadlocks and livelocks are properties of all schedules", "anchors": ["include/mcut/internal/frontend.h: context_t::api_thread_main, prepare_and_submit_API_task", "source/frontend.cpp: wait_for_events_impl"]}
{"id": "C57", "title": "Releasing a context ends its commands and returns", "statement": "mcReleaseContext returns, and when it does every command the context accepted is over and the context accepts no more; a command that was not executed is not reported as successfully completed, and the process survives.", "quantifier": "every moment of the release relative to the queued, waiting and running commands", "why_tests_cant": "interleavings", "anchors": ["include/mcut/internal/frontend.h: context_t::~context_t, shutdown, api_thread_main", "source/frontend.cpp: release_context_impl"]}
{"id": "C58", "title": "No sequence of calls with valid handles brings the process down", "statement": "Calling the enqueue, status, wait, callback and release functions in any order with handles the library has returned never makes the library dereference a null or dead object, index a thread that does not exist or terminate the process.", "quantifier": "every sequence of calls and every schedule", "why_tests_cant": "histories and schedules are unbounded", "anchors": ["include/mcut/internal/frontend.h: prepare_and_submit_API_task", "source/frontend.cpp: set_user_event_status_impl, release_event_impl, release_context_impl"]}
{"id": "C59", "title": "Partitioning a face cuts it in two and changes nothing else", "statement": "When the library resolves a floating polygon, it either leaves both meshes as they are or cuts one face by one new edge whose ends lie on two edges of that face: the two halves have exactly the boundary of the old face plus the new edge, the neighbouring faces get the new points on the shared edges, every other face and every old point is unchanged, and the mesh stays a valid mesh without holes in its numbering.", "quantifier": "every mesh accepted from the user, every sequence of partitions and perturbations", "why_tests_cant": "all meshes and all histories of partitions", "anchors": ["source/preproc.cpp: resolve_floating_polygons", "source/hmesh.cpp: add_face, remove_face, remove_edge"]}
{"id": "C60", "title": "After a perturbation the library only refers to faces that exist", "statement": "However floating polygons and general-position violations follow each other, the resolution of floating polygons reads only faces of the current meshes, and the candidate pairs handed to the intersection kernel name only such faces.", "quantifier": "every sequence of violations and floating polygons", "why_tests_cant": "the sequence depends on the kernel's answers; all histories", "anchors": ["source/preproc.cpp: preproc (loop around the kernel), resolve_floating_polygons"]}
{"id": "C61", "title": "Point in polygon is the even-odd rule", "statement": "In exact arithmetic the point-in-polygon test says 'v' exactly for the vertices, 'e' exactly for the other points on the boundary, and 'i' or 'o' according to whether a segment from the point to a point beyond the polygon that avoids the vertices crosses the boundary an odd or an even number of times, whichever segment is used.", "quantifier": "all polygons (self-intersecting and degenerate ones included) and all points", "why_tests_cant": "all real configurations", "anchors": ["source/math.cpp: compute_point_in_polygon_test"]}
{"id": "C62", "title": "Projecting a polygon to the plane keeps it apart", "statement": "The projection used for the point-in-polygon test of a polygon in space and for the choice of three non-collinear vertices is one-to-one on the plane of the polygon, so the three-dimensional test answers as the even-odd rule in that plane.", "quantifier": "all planes and all polygons in them", "why_tests_cant": "all real configurations; the failing normals form a cone", "anchors": ["source/math.cpp: project_to_2d, compute_point_in_polygon_test (3d), calculate_projection_matrix, rotation to the xy plane"]}
{"id": "C63", "title": "Plane coefficients and intersections with a plane are geometrically right", "statement": "In exact arithmetic the plane computed for a planar polygon is the plane of the polygon and the recorded coordinate is the largest of its normal; a segment or line tested against it is reported as in it, missing it or meeting it exactly when it does, and the point returned is on both.", "quantifier": "all planar polygons, segments and lines", "why_tests_cant": "all real configurations", "anchors": ["source/math.cpp: compute_polygon_plane_coefficients, compute_segment_plane_intersection, compute_line_plane_intersection"]}
{"id": "C64", "title": "Only faces that are not planar are reported as not planar", "statement": "The check of an input mesh never reports a face whose vertices lie in one plane as not coplanar, and reports every face that has vertices which do not; three points of the plane are called collinear exactly if they are.", "quantifier": "all faces with coordinates of ordinary size, in double precision", "why_tests_cant": "all coordinates; rounding errors are largest where tests do not look", "anchors": ["source/preproc.cpp: is_coplanar, check_input_mesh", "source/math.cpp: coplaner, collinear", "source/shewchuk.c: orient3d"]}
{"id": "C65", "title": "Seams are the connected intersection curves", "statement": "The segments in which source and cut mesh meet are split into seams so that every segment is in exactly one seam, once, two segments are in the same seam exactly if they are connected, and every seam runs along an open curve from end to end or once around a closed curve; every intersection point belongs to one seam. This holds whatever the iteration order of the hash tables.", "quantifier": "all sets of segments in general position (no point has more than two), of any size, all hash orders", "why_tests_cant": "every arrangement of curves and every hash order; tests see a few", "anchors": ["source/kernel.cpp: dispatch, 3572-3759 (m0_ivtx_to_cutpath_edges, m0_cutpath_sequences, m0_ivtx_to_cutpath_sequence)"]}
{"id": "C66", "title": "Whether a cut makes holes is decided by where its curves end", "statement": "A closed intersection curve makes a hole; an open one makes a hole exactly if none of its ends is on a border of the source mesh, and severs the source mesh exactly if both are. Fragments are sealed exactly if no intersection curve ends on a border of the source mesh.", "quantifier": "all sets of intersection curves, all recorded intersection points, all hash orders", "why_tests_cant": "every combination of curves, borders and orders", "anchors": ["source/kernel.cpp: dispatch, 3794-3986 (cut-path properties), 7746 (proceed_to_fill_holes)"]}
{"id": "C67", "title": "Floating polygons are found, and nothing else", "statement": "The closed intersection curves reported as floating polygons are exactly those whose points all lie in one face; each is reported with that face and with all its points, once and in order around the curve.", "quantifier": "all sets of intersection curves in general position, all hash orders", "why_tests_cant": "every arrangement of curves and every hash order", "anchors": ["source/kernel.cpp: dispatch, 4024-4139 (detected_floating_polygons)"]}
{"id": "C68", "title": "A face that is cut is replaced by the polygons the cuts divide it into", "statement": "Cuts through a face, from a point of its boundary to another, divide it into polygons; slits, from a point of the boundary to a point inside, add their two sides to a polygon. Exactly these polygons replace the face in the result, each once, directed as the face is, however many cuts and slits there are and in whatever order its edges are stored.", "quantifier": "all faces, all cuts that do not touch each other, all slits, all edge orders, all conforming std::partition", "why_tests_cant": "every arrangement of cuts and every memory order of the edges", "anchors": ["source/kernel.cpp: dispatch, 4953-5395 (clip_faces_against_intersection edges; incident_halfedges_to_be_walked)"]}
{"id": "C69", "title": "The polygons do not depend on the number of threads", "statement": "However the faces are shared out to threads, the polygons and their order are the same: those of the first face, then those of the second, and so on, the source mesh's first; every polygon is traced back to its face; the polygons beside the cuts are listed, in order and by mesh; faces without cuts are kept as they are.", "quantifier": "all meshes, all cuts, all numbers of threads and block sizes", "why_tests_cant": "every number of threads; results with more threads are only compared on a few meshes", "anchors": ["source/kernel.cpp: dispatch, 4859-5507 (fn_trace_faces, merge_local_traced_faces)"]}
{"id": "C70", "title": "Edges are divided at their intersection points, in order", "statement": "Every edge of an input mesh that is crossed is replaced by a chain of edges that runs through its intersection points in their order along the edge; an edge that is not crossed is replaced by one edge between the same ends. Every face that is cut receives exactly the edges on its sides, every intersection point exactly the halfedges that end there. This holds whatever the number of threads, the hash orders and the std::sort. With the clipping of the faces that follows, a cut face becomes the polygons the cuts divide it into.", "quantifier": "all meshes, all intersection points on their edges, all numbers of threads, all hash orders, all conforming std::sort; exact arithmetic and, with conditions, any monotone rounding", "why_tests_cant": "every arrangement of points along an edge, and roundings that tests do not hit", "anchors": ["source/kernel.cpp: dispatch, 4227-4850 (ps_edge_to_sorted_descriptors, merge_local_m0_edges)", "source/kernel.cpp: linear_projection_sort, 1498-1537"]}
{"id": "C71", "title": "Patches are the pieces of the cut mesh between the intersection curves", "statement": "The cut mesh is divided along the intersection curves into pieces; each piece is one patch, no two patches have a polygon in common, and together they make up the cut mesh. Every patch starts at a polygon beside the first edge of a curve.", "quantifier": "all pairs of cut meshes whose polygons meet along edges as in a surface, all sets of curves, all orders of curves", "why_tests_cant": "every shape of patch and every order of seeds", "anchors": ["source/kernel.cpp: dispatch, 6390-6424 (m0_h_to_ply), 7797-8108 (patch_discovery_seeds, flood fill)"]}
{"id": "C72", "title": "Patches are told apart as inside or outside", "statement": "McPatchLocation of a patch is INSIDE exactly if the patch lies inside the source mesh. This holds whatever the order in which hash tables are walked, as long as some polygon of the cut mesh runs up to the front of a source face along an edge; otherwise the first patch is taken to be inside.", "quantifier": "all cut meshes in one piece, all sets of curves, all arrangements of patches, all hash orders; exact arithmetic", "why_tests_cant": "every nesting of patches and every hash order", "anchors": ["source/kernel.cpp: dispatch, 6459-6617 (known_exterior_cm_polygons), 8110-8243 (colouring), 8540-8618 (patch_color_label_to_location)", "include/mcut/internal/math.h: matrix_t, 253-293"]}
{"id": "C73", "title": "Every crossing of an edge with a face gives one intersection point, whatever the threads", "statement": "Every edge is tested against every face of the other mesh whose bounding box overlaps, once. If no test violates general position there is exactly one intersection point for every crossing that is found, with its coordinates; the tables give for each edge, each face and each pair of faces exactly the points there, in increasing order, the points on the border of the cut mesh, and whether the cut is partial. If some test violates general position the result is that status. Every execution of the threads ends. A crossing with a triangle is found exactly if segment and triangle have a common point inside both; overlapping triangles in one plane violate general position.", "quantifier": "all meshes, all numbers of threads, block sizes, hash orders, conforming std::sort and interleavings; the triangle test in exact arithmetic", "why_tests_cant": "every interleaving of the threads and every arrangement of the meshes", "anchors": ["source/kernel.cpp: dispatch, 1779-1855 (ps_edge_face_intersection_pairs), 2057-2117 (culling), 2394-2840 (fn_compute_intersection_points)", "source/math.cpp: compute_segment_plane_intersection_type, compute_segment_plane_intersection, compute_point_in_polygon_test"]}
{"id": "C74", "title": "Intersection points are joined along the line where two faces meet", "statement": "For every two faces that meet, the intersection points on both are joined one after the other along their common line, by one edge for every two neighbours between which the line runs inside both faces and no edge otherwise. Every face gets exactly the edges that are on it, every point exactly the halfedges that end there. This holds whatever the order of the points and of the faces.", "quantifier": "all sets of intersection points, all meshes, all orders of the points and of the pairs of faces, all conforming std::sort; exact arithmetic (any rounding for faces that meet in two points)", "why_tests_cant": "every arrangement of the faces around two points", "anchors": ["source/kernel.cpp: dispatch, 3385-3550", "source/kernel.cpp: ps_get_ivtx_registry_entry_faces, 1409-1418", "source/kernel.cpp: update_neighouring_ps_iface_m0_edge_list, 1422-1495"]}
{"id": "C75", "title": "Faces without area are reported, and no thread goes on after the report", "statement": "If one of the faces that may intersect has no area, McDispatch fails, and the debug message names the mesh and the number of such a face; otherwise every face has its plane computed. When the dispatch returns, whatever the threads do, no helper thread still works on its data.", "quantifier": "all meshes, all numbers of threads, all interleavings, all hash orders; what has no area in exact arithmetic", "why_tests_cant": "every interleaving of the threads, every position of the face", "anchors": ["source/kernel.cpp: dispatch, 2165-2332 (fn_compute_intersecting_face_properties, potentially_intersecting_face_with_zero_area)", "include/mcut/internal/tpool.h: parallel_for, 418-471"]}
{"id": "C76", "title": "Commands that share the helper threads come to an end", "statement": "Commands of one context that run at the same time (an out-of-order context with several manager threads) share its helper threads; each of them comes to an end, whatever the threads do: no state is reached in which threads wait for each other for ever.", "quantifier": "all numbers of manager and helper threads, all sequences of parallel sections (loops, prefix sums, barriers) of all sizes, all interleavings", "why_tests_cant": "every interleaving of the threads of all commands", "anchors": ["include/mcut/internal/tpool.h: thread_pool, 245-266 (submit), parallel_for, 418-471, parallel_partial_sum, 550-648, barrier_t, 393-416, parallel_find_in_map_by_key, 716-792, get_scheduling_parameters", "include/mcut/internal/frontend.h: context_t", "source/frontend.cpp: get_connected_component_data_impl_detail, 3334-3475 (FACE_TRIANGULATION), 2162-2320 (FACE)", "source/kernel.cpp: dispatch, 7979"]}
{"id": "C77", "title": "A planar section cuts the mesh at the offset asked for, and through", "statement": "mcEnqueueDispatchPlanarSection cuts the source mesh with the plane that has the given normal vector and lies at the given part (the section offset) of the way from the lowest to the highest vertex along that vector; the triangle that stands for the plane covers the whole section of the mesh; every normal vector that is not zero is accepted.", "quantifier": "all meshes, all normal vectors, all offsets; exact arithmetic (any rounding for the part about the offset and the axes)", "why_tests_cant": "every mesh, every direction and every offset", "anchors": ["source/frontend.cpp: generate_supertriangle_from_mesh_vertices, dispatch_planar_section_impl, 697-906", "include/mcut/internal/math.h: vec2_, vec3_, normalize, length, dot_product", "source/mcut.cpp: mcEnqueueDispatchPlanarSection", "tutorials/PlanarSectioning/PlanarSectioning.cpp"]}
{"id": "C78", "title": "The lists of contexts, events and components are safe for any number of threads", "statement": "Calls that enter, look up, list and remove contexts, events and connected components may be made by several threads at once. Whatever the interleaving, the calls have the effect of being made one at a time, in an order that agrees with the order of each thread's own calls and in which a call that returned before another began comes first. No call uses an entry after it has been destroyed, none is kept back for good, and what has been removed is freed.", "quantifier": "all numbers of threads, all sequences of calls, all predicates, all interleavings of their lock, unlock and pointer operations", "why_tests_cant": "every interleaving of the single memory accesses", "anchors": ["include/mcut/internal/tpool.h: threadsafe_list, 873-969", "source/frontend.cpp: g_contexts, g_events, 64-65", "include/mcut/internal/frontend.h: context_t::connected_components, 839"]}
{"id": "C79", "title": "A handle can be released once", "statement": "Of several calls that release the same context, event or connected component exactly one succeeds; the others report an invalid handle.", "quantifier": "all interleavings of the calls of all threads", "why_tests_cant": "two threads have to be between the same two lines", "anchors": ["source/frontend.cpp: release_event_impl, 3712-3724, release_connected_components_impl, 3751-3760, release_context_impl, 3765-3776", "include/mcut/internal/tpool.h: threadsafe_list::find_first_if, remove_if, 928-968"]}
{"id": "C80", "title": "The two meshes are put together without mixing up their elements", "statement": "A dispatch works on the union of the source mesh and the cut mesh: every vertex and face of either mesh is there once, with its coordinates and its corners, the elements of the cut mesh numbered after those of the source mesh; no edge joins the two; whatever the number of helper threads and their interleaving. The vertex and face maps a user reads count in these numbers.", "quantifier": "all pairs of meshes that conversion and partitioning can produce, all numbers of threads, all interleavings", "why_tests_cant": "every mesh, every block size and every interleaving of the threads", "anchors": ["source/kernel.cpp: dispatch, 1579-1777 (create polygon soup, create m0)", "source/hmesh.cpp: get_vertices_around_face (offset), 719-731, add_vertex, add_face", "include/mcut/internal/tpool.h: parallel_for"]}
{"id": "C81", "title": "Enclosure is decided by the winding number", "statement": "With MC_DISPATCH_INCLUDE_INTERSECTION_TYPE, when the surfaces do not meet, one mesh is reported to be inside the other exactly if its first vertex is inside: a ray from that vertex leaves the other (closed, consistently oriented) surface once more than it enters it. The sum of signed solid angles the code computes is that whole number, whatever the shapes of the faces and the ray; it is 0 for a point outside the box of the surface or separated from it by a plane, changes sign when all faces are turned over, and is the same for all numbers and interleavings of the threads that add it up.", "quantifier": "all closed meshes of any face sizes, all points off the surface, all generic rays, all interleavings of the threads; exact arithmetic", "why_tests_cant": "every surface and every point; every interleaving of the compare-and-swap loops", "anchors": ["source/preproc.cpp: calculate_signed_solid_angle, 1327-1477, computeWindingNumberOnFace, getWindingNumber, 1479-1587, check_and_store_input_mesh_intersection_type, 1628-1727", "include/mcut/internal/tpool.h: mc_atomic_fetch_add, 1024-1030"]}
{"id": "C82", "title": "A fragment is reported above or below the cut mesh according to where it meets it", "statement": "The location reported for a fragment (MC_FRAGMENT_LOCATION_ABOVE, BELOW, UNDEFINED) is above exactly if polygons of the fragment come to the cut mesh from the side its normals point to and none lies behind the cut mesh there, below in the opposite case, undefined if both happen; every polygon that is put below has a polygon above across the cut, there are polygons above exactly if there are polygons below, and no fragment that meets the cut mesh is left without a location.", "quantifier": "all traced source-mesh polygons of any number of sides, all intersection points, all orders in which the polygons are visited, all numbers of threads; exact arithmetic", "why_tests_cant": "every cut and every order in which the polygons were traced", "anchors": ["source/kernel.cpp: dispatch, 6632-6821; extract_connected_components, 626-659, 1003-1008"]}
{"id": "C83", "title": "The source mesh is opened along the cut and nowhere else", "statement": "Along the intersection curves the source mesh is taken apart: every polygon of it reappears with the same sides at the same places, its loop closed; two polygons that shared an edge away from the cut share it still, two that shared an edge on the cut share none, and no other two become neighbours. At an intersection point two corners of polygons keep one common vertex only if they meet in an edge that is not on the cut, so the fragments on the two sides of a cut do not hang together at its vertices; vertices off the cut are untouched. This holds in whatever order the table of halfedges is iterated, and no polygon is left out: the walk along the cut reaches every polygon that the cut touches.", "quantifier": "all sets of traced source-mesh polygons with any number of sides, all curves, all iteration orders of the hash table", "why_tests_cant": "every cut; the order in which the halfedges are visited is that of a std::unordered_map", "anchors": ["source/kernel.cpp: resolve_intersection_point_descriptor, 1194-1405; dispatch, 6841-7660"]}
