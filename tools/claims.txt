C01 | proved | C01_broad_phase_exact, C01_face_boxes_are_hulls, C01_rebuilt_boxes_conservative | For meshes of 1..2^23 faces, any sort order, any worker schedule. On a rebuild after polygon partitioning the (uncleared) boxes can only be larger than the hulls.
C02 | proved | C02_node_slots_bijection, C02_build_out_of_bounds_refuted | Bijection up to 2^23 faces; the refuted theorem shows the out-of-bounds leaf write at 2^23+4 faces.
C03 | proved | C03_inner_boxes_are_hulls | Up to 2^23 faces (see C02).
C04 | proved | C04_float_ancestor_exact, C04_above_bound_refuted | IEEE binary32 arithmetic from Flocq.
C05 | proved | C05_morton_interleaves, C05_morton_injective | All float inputs incl. NaN and infinities.
C06 | proved | C06_perturbation_conservative | Doubles modelled as integers scaled by 2^-1074 with round-to-nearest-even.
C07 | proved | C07_blocks_partition_range, C07_parallel_for_is_sequential, C07_small_ranges_stay_on_caller | For 1 <= length, length + min_per_thread - 1 < 2^32, any pool size; the excluded lengths are refuted under C08.
C08 | partial | C08_empty_range_refuted, C08_huge_range_refuted, C08_nonempty_range_partial | The property is false of the code: an empty range divides by zero (tpool.h:376). Proved: every other length below the 32-bit wrap-around is fine.
C09 | proved | C09_queue_fifo, C09_pop_fails_only_if_empty | Any number of producers and consumers, sequentially consistent memory.
C10 | partial | C10_lost_wakeup_refuted, C10_push_wakes_sleeper_partial | The property is false of the code (push notifies without head_mutex). Proved: a push that finds the consumer already asleep wakes it.
C11 | partial | C11_partial_sum_correct, C11_partial_sum_terminates, C11_small_vector_partial, C11_returns_before_done_refuted | The vector ends up right and nothing deadlocks, but the call can return before the workers are done (refuted); for at most 1024 elements the returned vector is right.
C12 | proved | C12_connectivity_consistent, C12_allowed_calls_are_safe, C12_remove_face_effect | Any history of vertex/edge/face insertions and removals that respects the documented requirements; histories with a rejected face are property C15.
C13 | proved | C13_accepted_face_reads_back | 
C14 | proved | C14_insertability_test_agrees | 
C15 | partial | C15_rejected_face_changes_mesh_refuted, C15_rejected_face_leaks_slot_refuted, C15_repeated_halfedge_refuted, C15_rejected_face_preserves_old_partial | The property is false of the code. Proved: what was visible before is preserved. Missing (false): no new edges, no dangling face references, free slot kept.
C16 | proved | C16_iteration_and_counts_agree | 
C17 | proved | C17_accepted_iff_well_formed | Single-threaded build; every pair of arrays with enough indices is covered (arrays_describe_faces, arrays_describe_triangles); fewer than 2^31 indices because the code keeps offsets in an int.
C18 | proved | C18_parallel_equals_sequential | At least one face (the empty range is undefined behaviour, property C08); includes the race of C11, which is shown to be harmless here.
C19 | proved | C19_components_correct, C19_face_numbers, C19_input_mesh_check, C19_accepted_user_mesh, C19_parallel_face_numbers | Meshes without gaps in the numbering (all meshes at the two call sites are of this kind). With the thread pool the face numbers are proved for every interleaving; the faces-per-component counter is incremented without synchronisation there and is not claimed (no caller reads it).
C20 | proved | C20_components_partition_polygons, C20_later_calls | Single-threaded and thread-pool build, any pool size. Hypotheses (record proper): polygons that fit into one mesh, sorted below/above lists, complete maps; if neither list is empty every component has a polygon on one of them. Later calls drop a component whose face count equals that of the copy saved last under the same number (C20_later_calls states exactly this).
C21 | partial | C21_filters_select_partial, C21_no_filter_is_all, C21_unsealed_not_requested_refuted | False of the code: with LOCATION_UNDEFINED and without SEALING_NONE unsealed fragments are delivered. Proved: no filter = all filters, and for flags where UNDEFINED implies SEALING_NONE exactly the named components are delivered. The geometric work of the kernel is a parameter.
C22 | partial | C22_perturbations_bounded, C22_terminates, C22_exhaustion, C22_exhaustion_reported, C22_reported_vector, C22_many_attempts_refuted | Proved for 0..2^31-1 attempts; false for 2^31 attempts or more (accepted by the API), where the loop need not end. The kernel is an arbitrary oracle; the number of partitionings is not bounded by the driver.
C23 | partial | C23_candidates_match_partial, C23_stale_candidates_refuted | False of the code: after a cut-mesh polygon has been partitioned, a degeneracy makes the driver reload the user's cut-mesh but keep boxes and candidates of the partitioned one. Proved for runs in which this does not happen (record sane lists what is assumed of the geometry).
C24 | proved | C24_handles_never_reused | Histories shorter than 2^64 - 912559 calls, so that the counter does not wrap.
C25 | partial | C25_dead_context_partial, C25_dead_event_partial, C25_release_events, C25_dead_component_partial, C25_dead_stays_dead, C25_released_is_dead, C25_dead_waitlist_partial, C25_waitlist_leaks_event_refuted, C25_waitlist_unchecked_refuted, C25_release_list_changes_state_refuted | Proved for contexts, events and components named directly. False: an enqueue with a dead wait-list entry leaves a new event behind, wait-list entries after a pending one are not checked, and a release list with a bad entry releases the entries before it.
C26 | partial | C26_read_back, C26_bind_result, C26_winding_unreadable_refuted, C26_nan_accepted_refuted | Proved for the perturbation constant and the attempts. The winding order cannot be read back and a NaN constant is accepted (refuted).
C27 | proved | C27_enumeration, C27_enumeration_blocking, C27_number_with_buffer_refuted | The refuted theorem is beyond the statement: with both a buffer and a count pointer the count reported is 0.
C28 | partial | C28_release_listed, C28_release_all, C28_release_bad_entry, C28_huge_list_refuted | Proved for lists of fewer than 2^31 entries; with 2^31 or more the call returns success and releases nothing (refuted).
C29 | partial | C29_delivery_partial, C29_no_debug_no_output, C29_control_result, C29_source_api_rejected_refuted, C29_severity_ignore_switches_refuted, C29_frontend_never_enabled_refuted | Delivery by the three filters is proved; the API source alone cannot be selected, the frontend source cannot be enabled at all, and selecting no severity (IGNORE) switches the notification severity (refuted).
C30 | proved | C30_log_fetch, C30_log_fetch_bounds | 
C31 | partial | C31_starts_after_waitlist, C31_skipped_for_cause_partial, C31_once, C31_user_error_race_refuted | Order, at-most-once execution and cause of skipping are proved for every schedule; a command can start although the user set an entry of its wait list to an error, because the event becomes ready before its result is stored (refuted).
C32 | proved | C32_in_order | 
C33 | partial | C33_direct_partial, C33_user_partial, C33_transitive_refuted | Proved for direct successors; a successor of a skipped command runs and waiting for the skipped one reports success (refuted).
C34 | partial | C34_at_most_once, C34_not_early, C34_command_called_once_partial, C34_user_called_once_partial, C34_skipped_never_called, C34_skipped_refuted, C34_called_unfinished_refuted | At most once, never early, exactly once for completed commands and set user events. Never called for a skipped command; called for an unfinished command whose event is released (refuted).
C35 | partial | C35_success_partial, C35_failure_partial, C35_set_before_wait, C35_race_refuted, C35_code_refuted | Success is reported only if nothing in the list failed before the wait began; the error code is always MC_INVALID_VALUE, and a status set during the wait can be missed (refuted).
C36 | partial | C36_vertices, C36_small_values, C36_sizes, C36_adjacent_faces, C36_edges, C36_seam_vertices, C36_maps, C36_faces_partial, C36_face_race_refuted | Proved for all queries but FACE, in any cache state and schedule. FACE: proved when one thread copies (up to 2^14 faces) or the copying blocks are the summing chunks; false otherwise (every component with 2^14 < faces <= 2^15 and two or more helpers: a copying thread can read a partial sum another worker has not finished). Seam sequences and triangulation are C41, C42.
C37 | partial | C37_inside_partial, C37_faces_refuted, C37_sizes_refuted, C37_adjacent_faces_refuted, C37_edges_refuted, C37_several_threads_refuted, C37_empty_buffer_refuted, C37_triangulation_partial, C37_triangulation_refuted | False of the code: face, size, adjacency and edge queries overrun too small buffers; proved for maps, enumeration values, the perturbation vector, vertices and seam vertices copied by one thread, faces when the buffer reaches into the last face, the triangulation (default winding) and its map; the triangulation in reversed winding overruns.
C38 | partial | C38_arrays_partial | Everything but the face-index array for the face/thread counts where C36 fails.
C39 | partial | C39_faces_partial, C39_other_data | Same exception as C36.
C40 | proved | C40_maps, C40_entry, C40_range | For every sequence of violations and floating polygons; the kernel's map entries are inputs (in the range of the current meshes, or undefined), and the fields copied into the component are modelled.
C41 | partial | C41_sequences_partial, C41_query, C41_isolated_refuted, C41_branching_refuted | Coverage, lengths and counts: whenever every seam vertex has a seam neighbour, for every choice of seeds; consecutive vertices joined and loop flags right: when every seam vertex has one or two seam neighbours. Refuted for isolated vertices (crash) and for branching seams.
C42 | partial | C42_lines_up_partial, C42_faces, C42_queries_partial, C42_result_exists, C42_map_first_refuted, C42_reversed_array, C42_reversed_refuted, triangulate_face_triples | Default winding and the triangulation queried first: for every schedule of the triangulating threads each face's triangles are there once and the map names their face. Refuted: querying the map first dereferences a null pointer; with reversed winding the whole index array is reversed but not the map. The triangulation of a single face (CDT) is a parameter that returns triples of local indices; its emission loop is modelled. An exception inside a thread (others wait at the barrier) is not covered.
C43 | proved | C43_orient2d, C43_orient3d, C43_orient2d_total, C43_orient3d_total, C43_double, C43_arithmetic_exists, C43_double_orient2d, C43_double_orient3d, C43_ordinary, C43_double_plus, C43_double_minus, C43_double_mult, C43_underflow_excluded | For every correctly rounding 53-bit arithmetic that may fail (overflow, underflow) and all floating-point coordinates: whatever is returned has the sign of the exact determinant; if no operation fails a value is returned and no array overflows. IEEE double (failing on overflow and where gradual underflow loses bits) is such an arithmetic, and agrees with Flocq's binary64; on coordinates that are multiples of 2^-250 up to 2^250 (all doubles between 2^-197 and 2^250, and 0) nothing fails, so the sign is returned.
C44 | partial | C44_triangle, C44_polygon_partial, C44_polygon_defined_partial, C44_repeated_vertex_refuted, C44_singular_projection_refuted | Exact arithmetic. Full for triangles; for longer planar polygons every code returned is right, and one is returned if the projection is one-to-one on the plane and the first two vertices differ and are not the only line. False otherwise: a repeated first vertex or a normal vector on the cone of C62 ends in front() of an empty vector.
C45 | partial | C45_code_partial, C45_point_partial, C45_symmetric, C45_degenerate_refuted | Exact arithmetic. Full for segments that are not single points; false for single points.
C46 | proved | C46_shutdown_wakes_worker | 
C47 | partial | C47_worker_exception_lost_refuted, C47_normal_return_complete_partial | The property is false of the code for exceptions on workers.
C48 | proved | C48_parallel_search, C48_barrier, C48_find_if_dangling_barrier_refuted | The refuted theorem concerns parallel_find_if, which is not called at this commit.
C49 | partial | C49_parallel_edge_loop_visits_live_edges_partial, C49_parallel_face_loop_refuted | True for edges; false for faces, vertices and half-edges, whose std::distance counts removed slots.
C50 | partial | C50_moved_apart_not_accepted_partial, C50_moved_apart_accepted_refuted | False after exactly one perturbation (the count handed to the kernel lags by one); proved from the second on.
C51 | proved | C51_closed_iff_every_edge_shared | 
C52 | partial | C52_enclosure, C52_standard_partial, C52_filters_hide_intersection_refuted | False of the code when filters drop every component of an intersecting configuration. Proved: STANDARD iff something was cut (no filters), and the enclosure table, given that winding numbers and boxes tell inside and size (what the winding numbers tell: C81).
C53 | partial | C53_event_info_partial, C53_command_context_null_refuted | Proved for status, result, command type and the context of user events; for enqueued commands the context reported is the null handle (refuted). A command is the label sequence start, notify, end.
C54 | partial | C54_two_calls, C54_no_overflow_partial, C54_info_overflow_refuted, C54_event_overread_refuted | The two-call protocol is proved for every item; with other buffer sizes mcGetInfo overruns the buffer for all items but the flags, and mcGetEventInfo copies memory behind the item for command type and context (refuted).
C55 | partial | C55_rejected_partial, C55_offset_unchecked_refuted | The offset test rejects nothing (refuted); the other argument checks are proved.
C56 | proved | C56_bounded, C56_no_deadlock, C56_rest_all_over | 
C57 | partial | C57_returned_partial, C57_closed, C57_release_returns_partial, C57_release_running_refuted, C57_release_hangs_refuted, C57_release_noop_refuted | Proved: on return all commands are over unless one was running, the context is closed, and a release after all commands are over returns. False: release while a command runs returns early and later crashes, an out-of-order context can hang for ever, a command caught between being taken and started is reported successful without being executed.
C58 | partial | C58_polite_no_crash_partial, C58_release_queued_refuted, C58_foreign_waitlist_refuted, C58_status_of_command_refuted | False for four uses of valid handles (the fourth is C57_release_running_refuted); proved for every program that avoids them.
C59 | proved | C59_partition, C59_meshes, C59_resolve | The geometric search (which two edges are crossed, where) is an oracle; that the crossed edges are two different edges of the face is a hypothesis.
C60 | partial | C60_defined_partial, C60_stale_table_refuted, C60_stale_candidates_refuted | Holds as long as no violation follows the cutting of a face of the cut mesh; refuted otherwise: the table of cut faces and the candidate pairs are not reset when the cut mesh is rebuilt.
C61 | partial | C61_vertex, C61_edge, C61_even_odd, C61_crossing, C61_triangle, C61_spike_refuted | Exact arithmetic. All clauses hold for every polygon and point except that 'e' needs the point to be on an odd number of edges: a polygon that runs along the same edge twice reports 'i' or 'o' there (C61_spike_refuted).
C62 | partial | C62_projection_partial, C62_even_odd_partial, C62_collapse, C62_triangle_refuted | Exact arithmetic. Holds for all normal vectors off a cone, false on the cone: the centre of a triangle is reported to be outside it.
C63 | partial | C63_coefficients, C63_triangle, C63_segment, C63_line_partial | Exact arithmetic. Everything but lines is full; lines are proved for the polygons for which three vertices are found (C44).
C64 | partial | C64_planar, C64_total, C64_bent, C64_reported, C64_collinear, C64_bent_refuted, C64_size_refuted | The first half (no planar face is reported) and collinearity hold in full, in double precision. The second half is false: the code looks only at four consecutive vertices (C64_bent_refuted: a bent quadrilateral with the middles of its edges is accepted) and the threshold does not depend on the size (C64_size_refuted). What is reported for certain: a face with four consecutive vertices spanning a six-fold volume of at least 8.1e-7 (C64_bent, C64_reported).
C65 | proved | C65_paths, C65_connected, C65_case, C65_star | For curves in general position; C65_star shows that with three segments in a point the claim fails.
C66 | proved | C66_classified, C66_fill, C67_case | Hypotheses: general position and a registry in which exactly the ends of curves are on border edges; C67_case meets them.
C67 | proved | C67_floating, C67_case, C67_skip | The hypothesis that a curve does not leave a face in one point only holds for intersections of faces with faces; without it the loop, which looks at one end of each segment, passes over the point (C67_skip).
C68 | partial | C68_clipped_partial, C68_one_point, C68_gnu, C68_gnu_conforming, C68_case, C68_slit_refuted, C68_partition_refuted | Proved for every face with non-touching cuts and slits, unless the tracing has to start between two points of one side of the face: then it must not start at the mouth of a slit (C68_slit_refuted: a slit is lost and a degenerate polygon added; needs two points on every side), and with only what the standard says of std::partition an end iterator can be followed (C68_partition_refuted); with the std::partition of libstdc++ and the order of the edges in the code this does not happen if a side has at most one point (C68_gnu). Cuts that branch inside a face are not covered.
C69 | proved | C69_threads, C69_source_first, C69_same, C69_unchanged, C69_case | The children of a face are those of C68.
C70 | partial | C70_divided, C70_double_partial, C70_clipped, C70_case, C70_ties_refuted | Proved for exact arithmetic, and for every monotone rounding if the rounded projections of the points on an edge differ.  They may coincide for distinct points (C70_ties_refuted: binary64, the insertion sort of libstdc++): then the points come in the order in which they were found.
C71 | proved | C71_patches, C71_all, C71_case | C71_all: every polygon is in a patch, for a cut mesh in one piece whose places on curves each belong with the first edge of a curve.
C72 | proved | C72_colours, C72_located, C72_case | What inside means is a hypothesis: constant off the curves, different on the two sides of a curve, false for a polygon that runs along an edge up to the front of a source face.  Arithmetic is exact.  If there is no such polygon the code takes the patch right of the first edge of the last curve to be inside; the theorem needs that it is.
C73 | partial | C73_points, C73_ends, C73_complete, C73_triangle_partial, C73_star_refuted, C73_case, C73_violation_case, C73_triangle_case | C73_points holds for all executions.  Refuted: two overlapping triangles of one plane, none with a corner in the other, are not reported as a violation of general position (C73_star_refuted).  C73_triangle_partial: faces with three vertices, exact arithmetic, normal vector away from the cone of C62, segment not in the plane of the triangle.
C74 | partial | C74_neighbours, C74_neighbours_case, C74_joined_partial, C74_simple_partial, C74_triangles, C74_notch_refuted, C74_two_points, C74_middle, C74_joined_case, C74_triangles_case, C74_two_points_case | Refuted: where a face with a notch has a neighbour in the notch that shares two edges with it and has the smaller number, the line through the notch becomes an edge of the face with the notch (C74_notch_refuted).  C74_joined_partial: if two points that are all the points of two faces are on no third face together and the line between them is inside the two faces.  C74_simple_partial: the first of these conditions holds if faces have at most one edge in common.  C74_triangles: every two faces that meet have two points, any rounding.  C74_two_points: two triangles in general position have no hits and nothing in common, or exactly two, the line between which is what they have in common, its middle (C74_middle) inside both.
C75 | partial | C75_planes, C75_report_partial, C75_first_face_refuted, C75_finished_partial, C75_running_refuted, C75_ends, C75_sequential, C75_triangle, C75_case | Refuted: if the first face of the cut mesh is the only one without area, the message is always about the source mesh (`>` instead of `>=`, C75_first_face_refuted); with two helper threads or more, dispatch may return while a helper still works on its local variables (break out of the loop over the futures, C75_running_refuted).  Holds otherwise.
C76 | partial | C76_bounded, C76_exact, C76_in_order, C76_one_helper, C76_no_barriers, C76_two_triangulations_refuted, C76_triangulation_and_faces_refuted, C76_two_face_queries, C76_small_component | Refuted: in a context with two manager threads and two or more helpers, the triangulation queries of two components with more than 2048 faces each may deadlock (the parts that meet at a barrier stand in the helpers' queues in opposite orders), and so may a triangulation query beside a face query. C76_exact gives the exact condition under which no schedule can get stuck; C76_bounded says that every execution is finite. Spurious wake-ups and weak memory are not modelled.
C77 | partial | C77_defined, C77_axis_refuted, C77_offset_refuted, C77_plane, C77_missed_refuted, C77_proper, C77_section_partial, C77_centred_partial, C77_covered_refuted, C77_tutorial_refuted, C77_case, C77_missed_case | Refuted in three ways: the offset has no effect at all, the plane always passes through the origin (C77_offset_refuted, C77_plane, C77_missed_refuted; the tutorial asks for height -1 and gets 0); for normal vectors along the negative first or second axis a zero vector is normalized, in double precision too (C77_axis_refuted, C77_defined: for no others); the triangle need not cover the section if most vertices are at one end (C77_covered_refuted). C77_section_partial and C77_centred_partial: the whole section is covered if the offset stands for the plane through the origin and the mean of the vertices is near the middle. Exact arithmetic apart from C77_offset_refuted and C77_axis_refuted; overflow not modelled.
C78 | proved | C78_linearizable, C78_real_time, C78_no_fault, C78_no_leak, C78_no_deadlock, C78_ends, C78_all_done, C78_case | For all programs of all threads and all interleavings; the predicates are functions of the entry and do not use the list themselves. At most 6 n + 5 steps to a call, where n is the number of entries ever made.
C79 | partial | C79_double_release_refuted, C79_not_again_partial, C79_case | Refuted: a release looks the handle up and removes it in two calls; two threads that both look it up before one removes it both succeed. Proved: a release that looks the handle up after another release has removed it fails, for all histories.
C80 | proved | C80_union, C80_runs, C80_every_turn, C80_same_for_all_threads, C80_vertex_numbers, C80_face_numbers, C80_case | For all meshes without free slots, which are those the kernel is given in every turn of the loop around it (C80_every_turn, with C59); every cut-mesh face is accepted by the combined mesh. C80_vertex_numbers and C80_face_numbers put the tables together with those of C40.
C81 | partial | C81_crossings, C81_whole_number, C81_outside, C81_outside_box, C81_reversed, C81_threads, C81_accepted, C81_type_partial, C81_own_vertex_refuted, C81_case | The winding numbers are right (exact arithmetic, all closed meshes of any face sizes, given a triangulation of faces of more than four vertices that keeps the border). The type is right unless both meshes are closed and the source has the smaller box: then the second test asks for the winding number of the source mesh about its own first vertex (preproc.cpp:1674), and C81_own_vertex_refuted gives two meshes on the two sides of a plane of which one is reported to be inside the other.
C82 | partial | C82_lists, C82_exact_partial, C82_other_side, C82_reported_partial, C82_lost_refuted, C82_case | Refuted: the search before a polygon is put below is for the polygon in front, not for the one to be put there (kernel.cpp:6810); a source polygon between two sheets that face the same way (a bar through a spiral sheet) is below one and above the other, and if it is visited after the one above it, what lies behind it is on neither list and the extraction ends with an exception. Proved: the above list is exact in all scenes; both lists, and with C20 the reported locations, are exact if no polygon lies between two such sheets. The scene (registry entries, curves with one source polygon on each side) is a hypothesis; arithmetic is exact.
C83 | partial | C83_opened_partial, C83_sides, C83_apart_partial, C83_slit_refuted, C83_case, C83_finishes_partial, C83_finishes_case, C83_beside_case, C83_unreached_refuted | Proved for all inputs and iteration orders: polygons, places, loops, and that sides are shared exactly across edges off the curves. That corners share a vertex only across such an edge is proved if no cut that ends inside a polygon starts at an edge of it when all its sides touch intersection points (sever_mouths); without that it is refuted: a square cut twice across with a slit between the cuts is opened at the mouth of the slit or not depending on the iteration order of an unordered_map. The walk ends without access to anything missing (C83_finishes_partial) if each cut polygon has a side away from the cuts, or a piece of an edge between two cuts, or only one vertex that is not an intersection point, or can be reached from such a polygon through others across edges walked away from an intersection point (sever_reached); without that it is refuted: in a square with two opposite corners cut off the piece in the middle is never walked, and looking up the halfedge of one of its sides (.at()) throws.
