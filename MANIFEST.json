{"claims": [
 {"property": "C01", "status": "proved", "theorems": ["C01_rotation_permutation", "C01_remove_used_node_refuted"], "note": "for every call history; the limit (removeIsolatedNode on a node with darts) is shown by a witness"},
 {"property": "C02", "status": "proved", "theorems": ["C02_contours_partition", "C02_contour_step"], "note": "for every call history from initializeMap on"},
 {"property": "C03", "status": "proved", "theorems": ["C03_euler_poincare"], "note": "for every call history from initializeMap on"},
 {"property": "C04", "status": "proved", "theorems": ["C04_counters", "C04_labels_not_reused", "C04_new_labels"], "note": "for every call history"},
 {"property": "C05", "status": "proved", "theorems": ["C05_vetoed_unchanged", "C05_veto_refuses", "C05_performed_iff"], "note": "observable state unchanged; for all hook functions"},
 {"property": "C06", "status": "proved", "theorems": ["C06_mergeFaces_result"], "note": ""},
 {"property": "C07", "status": "partial", "theorems": ["C07_init_outer_first_partial", "C07_mergeFaces_refuted"], "note": "proved after initializeMap; false of the code after mergeFaces when the survivor lies in a hole of the removed face (witness)"},
 {"property": "C08", "status": "proved", "theorems": ["C08_split_result", "C08_split_then_merge"], "note": ""},
 {"property": "C09", "status": "proved", "theorems": ["C09_end_points"], "note": "for every call history of geometrically consistent calls"},
 {"property": "C10", "status": "proved", "theorems": ["C10_area_is_enclosed", "C10_bent_split_refuted"], "note": "for split points on the edge; otherwise refuted by a witness"},
 {"property": "C11", "status": "proved", "theorems": ["C11_degrees"], "note": ""},
 {"property": "C12", "status": "proved", "theorems": ["C12_lookup_is_quotient", "C12_nonrepresentative_target_refuted"], "note": "lookup is the quotient for merges onto representatives; the unrestricted form is refuted by a witness"},
 {"property": "C13", "status": "proved", "theorems": ["C13_mergedBegin_enumerates_class", "C13_self_relabel_loses_labels_refuted"], "note": "enumeration of the merged class; self relabel refuted by a witness"},
 {"property": "C14", "status": "proved", "theorems": ["C14_nearest_is_nearest", "C14_contents"], "note": "exact arithmetic"},
 {"property": "C15", "status": "proved", "theorems": ["C15_nearestNode", "C15_node_calls_defined", "C15_coincident_nodes_refuted"], "note": "for histories with distinct node positions; with coincident nodes refuted by a witness"},
 {"property": "C16", "status": "proved", "theorems": ["C16_iterate_all", "C16_iterate_while_removing", "C16_finite_faces", "C16_finite_faces_empty_refuted", "C16_cells_of_a_map", "C16_dereference"], "note": ""},
 {"property": "C17", "status": "proved", "theorems": ["C17_label_scan", "C17_image_filter", "C17_image_filter_flat_refuted"], "note": "LabelScanIterator for all rectangles; ImageFilterIterator needs a rectangle that is not flat in one direction only (witness)"},
 {"property": "C18", "status": "proved", "theorems": ["C18_normalize_line"], "note": "std::sort is any sorting function; segments must not end before they begin"},
 {"property": "C19", "status": "partial", "theorems": ["C19_counts", "C19_size", "C19_bridge", "C19_merge", "C19_remove", "C19_veto", "C19_kept", "C19_safe_partial", "C19_init", "C19_stale_refuted", "C19_beside_refuted", "C19_merge_undefined_refuted", "C19_switch_undefined_refuted"], "note": "Proved for all histories whose calls keep the cached scanlines up to date (tracked: no scanLines() call before a splitEdge without label image, inserted points on the segment, no node moved under a label image); refuted outside. Undefined behaviour excluded except for the two calls named by hazard, which are refuted separately."},
 {"property": "C20", "status": "proved", "theorems": ["C20_relabel", "C20_infinite_refuted"], "note": "For tables that keep label 0 for the infinite face; a table that moves it is accepted by the code (refuted separately)."},
 {"property": "C21", "status": "partial", "theorems": ["C21_rejected_refuted", "C21_rejected_partial"], "note": "False as stated; the labels after the exception are characterised exactly."},
 {"property": "C22", "status": "proved", "theorems": ["C22_crack_bits", "C22_empty_refuted"], "note": "all positive sizes; the lower right corner is not written; an empty image is UB"},
 {"property": "C23", "status": "proved", "theorems": ["C23_corner_bits", "C23_symmetric", "C23_degree", "C23_diagonals"], "note": "all eight bits of every corner, with and without 8-connected regions"},
 {"property": "C24", "status": "partial", "theorems": ["C24_length", "C24_area_partial", "C24_area_refuted", "C24_pushed_area", "C24_points"], "note": "length() is right for every history; partialArea() is not (push_back and extend across a gap add the cross product without the factor 1/2; refuted, and polygons built by push_back report exactly twice their area), it is right for all histories that avoid this while the area is cached. Exact arithmetic; p.extend(p) is not modelled."},
 {"property": "C25", "status": "partial", "theorems": ["C25_bbox_partial", "C25_bbox_refuted", "C25_write_refuted"], "note": "setPoint never extends a cached box (refuted); right for all histories in which setPoint stays inside the box. Writing through operator[] leaves all caches stale (refuted)."},
 {"property": "C26", "status": "partial", "theorems": ["C26_move_partial", "C26_ends", "C26_area_refuted", "C26_caches_partial", "C25_write_refuted"], "note": "End points, topology and values not queried before are right; cached face areas, lengths, areas and boxes stay stale (refuted: initializeMap already caches the areas)."},
 {"property": "C27", "status": "partial", "theorems": ["C27_forward_partial", "C27_goto_partial", "C27_next_partial", "C27_back_refuted"], "note": "Moves forward are right for every dart with at least two points; a move backward never is (refuted for every dart with three points). leaveCircle and intersectCircle are not modelled. Exact real arithmetic."},
 {"property": "C28", "status": "proved", "theorems": ["C28_angleTheta_range", "C28_angleTheta_lt", "C28_angleTheta_eq"], "note": "exact arithmetic; compared with polar coordinates over the reals"},
 {"property": "C29", "status": "proved", "theorems": ["C29_sort_result"], "note": ""},
 {"property": "C30", "status": "proved", "theorems": ["C30_simplify", "C30_single_refuted"], "note": "For polygons with at least two points, exact real arithmetic; a single point is returned twice (refuted)."},
 {"property": "C31", "status": "partial", "theorems": ["C31_getLevel_partial", "C31_gotoLevel_partial", "C31_approachLevel_partial", "C31_recorded_partial", "C31_empty_composite_refuted", "C31_walk_refuted", "C31_stale_checkpoint_refuted"], "note": "For every segmentation type and every orderly history (operations at the top, nonempty composites, operations failing inside of composites without effect, cuts, stored checkpoints, walks of the top level): getLevel, gotoLevel and approachLevel reach exactly the recorded levels. Missing because false: empty composites, operations after walking down, changeIntoComposite of a finished operation, and failed operations outside of composites (C32)."},
 {"property": "C32", "status": "partial", "theorems": ["C32_inside", "C32_outside_partial", "C32_rolled_back_refuted"], "note": "A failing operation inside of a composite is taken back. Outside of composites the claim is refuted: for every orderly pyramid the failed operation stays in the history (level count one too large), because cutAbove in the handler throws first; earlier levels stay reachable."},
 {"property": "C33", "status": "partial", "theorems": ["C33_levels_partial", "C33_open", "C33_change_refuted"], "note": "Operations and composites opened with beginComposite or converted while one is open count as one level. Refuted for every pyramid whose last finished operation is converted with changeIntoComposite."},
 {"property": "C34", "status": "proved", "theorems": ["C34_roundtrip", "C34_injective", "C34_collides", "C34_overflow"], "note": "round trip and injectivity below 2^14; every dart beyond (up to 2^17, where the int shift overflows) shares its code with another dart"},
 {"property": "C35", "status": "proved", "theorems": ["C35_lossless", "C35_set_type", "C35_set_label", "C35_equal", "C35_serializer", "C35_truncated", "C35_search_types_refuted"], "note": "all labels below 2^30 and the four storable types; larger labels lose their top bits; the two search types cannot be stored (refuted)"},
 {"property": "C36", "status": "partial", "theorems": ["C36_mirrors", "C36_involutive", "C36_four_partial", "C36_four_refuted", "C36_add_point", "C36_add_point_refuted", "C36_grow_right", "C36_grow_left"], "note": "mirrors and their involutivity for every line; convertToFourConnected only in the first octant (refuted elsewhere); addPoint contains/unchanged for every call that returns, refuted for a call whose postcondition throws; for segments continued by one column addPoint is a complete decision procedure"},
 {"property": "C37", "status": "proved", "theorems": ["C37_samples", "C37_faces", "C37_attached", "C37_infinite", "C37_map"], "note": "Histories: any calls, hooks that veto included; while statistics are attached only Euler operations (no changeFaceLabels); the image has the size of the label image; the label image was drawn so that the pixel areas are right and the edges beside a face lie in its bounding box (fcounted)."},
 {"property": "C38", "status": "partial", "theorems": ["C38_count", "C38_consistent", "C38_undefined_partial", "C38_defined_partial", "C38_refuted", "C38_release_refuted"], "note": "The count is right in every history. The table is read after its release exactly in the merges described by losesTable, and it is not released when associatePixels gives the last supersampled face enough pixels."},
 {"property": "C39", "status": "proved", "theorems": ["C39_protection", "C39_protection_marks", "C39_flags", "C39_protection_bulk", "C39_drawing_refuted"], "note": "Histories of Euler operations after initializeMap, with any further slots attached; removeEdge before initializeMap ignores protection (refuted case)."},
 {"property": "C40", "status": "proved", "theorems": ["C40_removeBridges", "C40_removeAllBridges", "C40_duplicate_refuted", "C40_marked_refuted", "C40_unmarks_refuted"], "note": "Lists of distinct bridges that do not carry the internal UNREMOVABLE mark; without these preconditions the code reads the front of an empty list (refuted cases)."},
 {"property": "C41", "status": "proved", "theorems": ["C41_calls_defined", "C41_table_covers", "C41_growth_keeps_entries", "C41_vectors_simulate_get", "C41_vectors_simulate_put", "C41_vectors_simulate_ensure", "C41_setSigma_never_resizes", "C41_resize_other_sizes_refuted"], "note": ""},
 {"property": "C42", "status": "partial", "theorems": ["C42_refuted", "C42_off_on_partial", "C42_again_partial", "C42_on"], "note": "False as stated; proved for images made by the switch itself and, pixel by pixel, for all others."},
 {"property": "C43", "status": "proved", "theorems": ["C43_accumulate", "C43_hooks_decide"], "note": ""},
 {"property": "C44", "status": "proved", "theorems": ["C44_contour_walk", "C44_contour_points", "C44_dart_points"], "note": ""},
 {"property": "C45", "status": "proved", "theorems": ["C45_even_odd", "C45_rotate", "C45_reverse", "C45_subdivide", "C45_chord", "C45_triangle", "C45_fan", "C45_bounding_box", "C45_face", "C45_face_at", "C45_contour_parity"], "note": "Exact rational arithmetic; bounding boxes computed afresh (cached ones: C24, C25); no label image. Rotation and reversal hold for every point, without any general position condition."},
 {"property": "C46", "status": "partial", "theorems": ["C46_constructed", "C46_exact", "C46_removed", "C46_pixel", "C46_counts", "C46_refuted", "C46_import_refuted", "C76_checked"], "note": "Holds for the import constructor, the thresholding constructors (C76_checked, drawings whose nodes have no holes) and every history of the four operations. Needed: line pixels lie on edges that begin at a node, removeIsolatedNode is called on an isolated node, mergeFaces on a dart whose sides and opposite dart report the faces consistently; refuted without the first two. That the calls return is C72 (for maps with contours in order) and C76 (constructors)."},
 {"property": "C47", "status": "proved", "theorems": ["C47_reverse", "C47_split"], "note": ""},
 {"property": "C48", "status": "proved", "theorems": ["C48_copy", "C48_same_map", "C48_independent", "C48_no_common_objects", "C48_own_histories", "C48_programs_exist", "C48_mislabelled_refuted", "C48_hooks_refuted"], "note": "Copy constructor on a heap of objects; independence against every program that works on what it can reach. Proved for maps reached by calls that return; after a rejected changeFaceLabels a copy loses a face, and callbacks are not copied (both proved)."},
 {"property": "C49", "status": "proved", "theorems": ["C49_spec", "C49_points", "C49_veto_refuted"], "note": "Unless a slot other than protection refuses single bridges (refuted case)."},
 {"property": "C50", "status": "partial", "theorems": ["C50_closed_subset", "C50_hull_partial", "C50_general_position_partial", "C50_convex_refuted", "C50_contains_refuted", "C50_compare_refuted"], "note": "closedness and inclusion in the input hold for every sort; convexity and containment hold unless the sort puts a nearer and then a farther point behind a point of the same ray from the extremal point (then refuted: dent, point outside); an extremal point that occurs twice makes the comparison no strict weak order"},
 {"property": "C51", "status": "proved", "theorems": ["C51_covered_iff_passes_through", "C51_lines_normalised", "C51_bounding_box_suffices", "C51_draw_polygon", "C51_fill_scanlines", "C51_draw_scanlines"], "note": "exact rational coordinates instead of floating point"},
 {"property": "C52", "status": "proved", "theorems": ["C52_closed_total", "C52_winding", "C52_fill_polygon"], "note": "exact rational coordinates instead of floating point"},
 {"property": "C53", "status": "proved", "theorems": ["C53_merge", "C53_plus_assign", "C53_reverse", "C53_append"], "note": ""},
 {"property": "C54", "status": "proved", "theorems": ["C54_iterator", "C54_pixels", "C54_iterator_empty_refuted"], "note": "constructing the iterator on scanlines without segments is out of range"},
 {"property": "C55", "status": "proved", "theorems": ["C55_runs", "C55_segments", "C55_nodes"], "note": "Model in doubled coordinates; initializeMap after the generator is covered by the GeoMap claims."},
 {"property": "C56", "status": "partial", "theorems": ["C56_longest", "C56_returns", "C56_assert_refuted", "C56_hangs_refuted"], "note": "the result is the longest symmetric tangent for every input and fuel; it returns for open polygons and for closed ones with three directions when assertions are off; refuted: closed polygon going forth and back (endless loop), assertions on (inverted condition)"},
 {"property": "C57", "status": "proved", "theorems": ["C57_removeIsolatedNodes", "C57_mergeDegree2Nodes", "C57_removeEdges", "C57_duplicate_refuted"], "note": "Distinct existing labels without the internal mark; duplicates throw midway (refuted case)."},
 {"property": "C58", "status": "partial", "theorems": ["C58_areas_partial", "C42_refuted"], "note": "Proved for histories in which initializeMap draws contours in an order that leaves every crossed pixel to a contour or bridge, and the image is switched on at most with area 0 for the infinite face; C42_refuted shows the latter is needed."},
 {"property": "C59", "status": "partial", "theorems": ["C59_box", "C59_covers", "C59_moved_refuted"], "note": "False after Node::setPosition: the box kept does not follow."},
 {"property": "C60", "status": "partial", "theorems": ["C38_defined_partial", "C37_map", "C38_refuted", "C60_destroyed_refuted"], "note": "True except for merges that release the table and objects destroyed while attached."},
 {"property": "C61", "status": "partial", "theorems": ["C61_same", "C61_shared_partial", "C61_dangling_partial", "C61_destroyed_twice_partial", "C61_single"], "note": "The copy shares the functors, so independence fails for every object with a functor."},
 {"property": "C62", "status": "proved", "theorems": ["C62_scan", "C62_size"], "note": ""},
 {"property": "C63", "status": "proved", "theorems": ["C63_effect", "C63_infinite"], "note": "Calls that return; conditions of removeIsolatedNode and mergeFaces as for C46."},
 {"property": "C64", "status": "partial", "theorems": ["C64_check", "C64_darts", "C64_consistency", "C46_refuted"], "note": "The tests of bounds, anchors, degrees, edge start and end, and (C64_consistency) all of checkConsistency for maps with contours in order and at most 10000 darts per contour, a limit built into the test. The bounds test scans only the stored bounds, so bounds that are too small pass (C46_refuted)."},
 {"property": "C65", "status": "partial", "theorems": ["C65_next", "C65_prev", "C65_constructor", "C65_constructor_throws", "C65_refuted", "C65_constructor_refuted"], "note": "Proved for images in which no line pixel lies in the corner between two diagonal pixels of a node and touching node pixels belong to one node; without the first condition false (C65_refuted). The constructor of DartTraverser keeps its postcondition for the four sides of a node pixel, not for the diagonals (C65_constructor_refuted)."},
 {"property": "C66", "status": "proved", "theorems": ["C66_alpha", "C66_phi", "C66_phi_onto"], "note": "From any map whose darts are in order; calls are made with darts."},
 {"property": "C67", "status": "proved", "theorems": ["C67_degree"], "note": "From any map whose darts are in order; calls are made with darts."},
 {"property": "C68", "status": "proved", "theorems": ["C68_sides", "C68_sigma", "C68_alpha", "C68_contour"], "note": "From any map whose darts and faces are in order; calls are made with darts."},
 {"property": "C69", "status": "proved", "theorems": ["C69_calls", "C69_regions", "C69_border", "C69_anchor_refuted"], "note": "From any map whose darts and faces are in order, e.g. the maps of the constructors (C70, C76); about calls that return (C72); for removeIsolatedNode with the anchor of a node of three pixels the claim is refuted."},
 {"property": "C70", "status": "proved", "theorems": ["C70_order", "C70_edges", "C70_nodes", "C70_alpha", "C70_contour", "C70_checks", "C70_calls"], "note": "About constructor calls that return without filling holes in nodes (C76 says when they do), and calls that return (C72)."},
 {"property": "C71", "status": "proved", "theorems": ["C71_kept", "C71_darts", "C71_nodes", "C71_anchors", "C64_consistency"], "note": "That the calls return is C72; that the constructors put the contours in order is C77. C78 drops the assumption that removeBridge is called with an edge whose darts lie on one contour."},
 {"property": "C72", "status": "proved", "theorems": ["C72_calls", "C72_mergeFaces", "C72_removeBridge", "C72_mergeEdges", "C72_removeIsolatedNode", "C72_runs"], "note": "For maps with contours in order (khistory, as in C71); the release build is modelled (validateDart and checkConsistency are not called). A dart is given as in C65."},
 {"property": "C73", "status": "proved", "theorems": ["C73_outcome", "C73_refused", "C73_corner", "C73_regions", "C73_lines", "C73_nodes", "C73_transposed", "C73_mirrored"], "note": "The table is irregular for thick contours: proved are a necessary and a sufficient condition for refusal."},
 {"property": "C74", "status": "proved", "theorems": ["C74_image", "C74_neat", "C74_lean", "C74_import", "C74_outcome", "C74_default_refuted"], "note": "For images whose nodes have no holes (unpierced); with the default corner type additionally neat, without which the map can be inconsistent (C74_default_refuted)."},
 {"property": "C75", "status": "proved", "theorems": ["C75_types", "C75_nodes", "C75_edges", "C75_faces", "C75_labels", "C75_pierced_refuted"], "note": "Same hypotheses as C74; with holes in nodes refuted (C75_pierced_refuted)."},
 {"property": "C76", "status": "proved", "theorems": ["C76_import", "C76_helpers", "C76_corner_refuted", "C76_threshold", "C76_outcome", "C76_checked", "C76_history"], "note": "Hypotheses on the helpers (rightAreas, rightParts) hold for pixelArea and contourParts on every image (C76_helpers). Without a node in the corner the import constructor throws (C76_corner_refuted); contour pixels along the whole upper side are sufficient, not necessary."},
 {"property": "C77", "status": "proved", "theorems": ["C77_contoured", "C77_split_refuted", "C77_contours", "C77_bridge", "C77_helpers", "C77_whole", "C77_threshold"], "note": "Needs faces that hang together; without that false (C77_split_refuted). The helpers must number the connected parts of the contour exactly, as contourParts does on every image (C77_helpers)."},
 {"property": "C78", "status": "proved", "theorems": ["C78_bridge", "C78_split_refuted", "C78_contoured", "C78_consistency", "C78_runs", "C78_pixels", "C78_contours", "C78_threshold"], "note": "Needs faces that hang together; without that false (C78_split_refuted). checkConsistency gives up on contours of more than 10000 darts, so C78_consistency excludes them."},
 {"property": "C79", "status": "proved", "theorems": ["C79_euler", "C79_split_refuted", "C79_contours", "C79_calls", "C79_clears"], "note": "Needs faces that hang together; without that false (C79_split_refuted)."},
 {"property": "C80", "status": "proved", "theorems": ["C80_faces", "C80_exact", "C80_lost_refuted"], "note": "Exact unless the face got pixels of a node removed as isolated: these are missing (C80_lost_refuted), so the claim without that exception is false. Integer values and exact sums."},
 {"property": "C81", "status": "proved", "theorems": ["C81_edges", "C81_exact", "C81_start", "C81_border_refuted"], "note": "Edges that come to lie along the infinite face after the constructor keep their average and are not protected (C81_border_refuted). Integer values and exact sums; without rethinning."},
 {"property": "C82", "status": "proved", "theorems": ["C82_protect", "C82_protected", "C82_parts", "C82_kept", "C82_bits_refuted"], "note": "Flags of one bit; for flags of more bits false (C82_bits_refuted)."},
 {"property": "C83", "status": "proved", "theorems": ["C83_changes", "C83_call", "C83_same", "C83_returns"], "note": "Without rethinning and automatic protection."},
 {"property": "C84", "status": "proved", "theorems": ["C84_edge", "C84_ends", "C84_stats_refuted"], "note": "For maps from a constructor and any calls, with statistics after any calls. The statistics of the face lack the pixels of removed ends (C84_stats_refuted)."},
 {"property": "C85", "status": "proved", "theorems": ["C85_levels", "C85_operation", "C85_dart"], "note": "For pyramids built as in C31 (see there for what is excluded because it is false), with operations made with darts of the top level; images of at most 2^14 columns and rows. lastChanges is not part of a level; the shared edge protection is not changed meanwhile."},
 {"property": "C86", "status": "proved", "theorems": ["C86_reassociate", "C86_only", "C86_sizes_refuted"], "note": "The pixel needs one of its own cell among its neighbours; sizes are not adapted (C86_sizes_refuted)."},
 {"property": "C87", "status": "proved", "theorems": ["C87_thinning", "C87_vanish_refuted", "C87_foreign_refuted"], "note": "The region growing of VIGRA is an arbitrary function; its two conditions are necessary (the refuted statements)."},
 {"property": "C88", "status": "proved", "theorems": ["C88_point", "C88_points", "C88_counts", "C88_sizes_refuted", "C88_uphill_refuted"], "note": "That the loop ends is not claimed. Sizes of faces become wrong and pixels may move to a lower gradient (the refuted statements)."},
 {"property": "C89", "status": "proved", "theorems": ["C89_assign", "C89_construct", "C89_same", "C89_write", "C89_outlives", "C89_stale", "C89_dead_refuted"], "note": "That the darts a map holds for its cells are its own is a hypothesis (the constructors and operations of CellMap_Model do not carry the address of the map). The last sentence of the statement is C89_dead_refuted."},
 {"property": "C90", "status": "proved", "theorems": ["C90_cut", "C90_total", "C90_zero", "C90_leaving", "C90_leave_refuted", "C90_infinite_refuted"], "note": "Exact arithmetic on rational coordinates. The last sentence of the statement is C90_leaving, C90_leave_refuted and C90_infinite_refuted."},
 {"property": "C91", "status": "proved", "theorems": ["C91_marks", "C91_monotone", "C91_negated", "C91_negated_refuted"], "note": "Integer values, products exact. The last clause of the statement is C91_negated_refuted."},
 {"property": "C92", "status": "proved", "theorems": ["C92_init", "C92_again", "C92_edge"], "note": "The last sentence of the statement is C92_edge, about the statements at the end of postMergeEdges taken alone (statExec of C80 to C83 has doAutoProtection off). Rational threshold and exact product."},
 {"property": "C93", "status": "proved", "theorems": ["C93_get", "C93_set", "C93_setPoint", "C93_dart", "C93_split", "C93_insert", "C93_insert_at", "C93_insert_refuted", "C93_delete", "C93_delete_at", "C93_delete_last", "C93_delete_refuted", "C93_delete_off", "C93_large_refuted"], "note": "32 bit int, 64 bit size_t. Slices are not modelled."},
 {"property": "C94", "status": "proved", "theorems": ["C94_mark", "C94_remove", "C94_edges", "C94_freed", "C94_unmarked_refuted", "C94_row", "C94_iterate", "C94_iterate_refuted"], "note": "Pixels are integers. The two statements said to be false in the property are refuted; the others are proved."}
]}
