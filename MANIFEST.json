{
 "claims": [
  {
   "property": "C01",
   "status": "proved",
   "theorems": [
    "C01_bounded_construction"
   ],
   "note": ""
  },
  {
   "property": "C02",
   "status": "proved",
   "theorems": [
    "C02_checked_arithmetic",
    "C02_builtin_bounds"
   ],
   "note": ""
  },
  {
   "property": "C03",
   "status": "proved",
   "theorems": [
    "C03_bounded_iteration"
   ],
   "note": ""
  },
  {
   "property": "C04",
   "status": "partial",
   "theorems": [
    "C04_safe_conversions_refuted",
    "C04_safe_conversions_partial"
   ],
   "note": "False of the code: From<bool> and Default ignore the bounds (C04_safe_conversions_refuted); all other conversions are proved in range (C04_safe_conversions_partial). Exact behaviour: C59."
  },
  {
   "property": "C05",
   "status": "proved",
   "theorems": [
    "C05_pos_is_grid_type",
    "C05_pos_construction"
   ],
   "note": ""
  },
  {
   "property": "C06",
   "status": "partial",
   "theorems": [
    "C06_i32_conversion_refuted",
    "C06_i32_conversion_partial"
   ],
   "note": "False of the code: coordinates are truncated to 16 bits before the check (C06_i32_conversion_refuted). Proved for coordinates in 0..=65535 (C06_i32_conversion_partial). Exact behaviour for all inputs: C60."
  },
  {
   "property": "C07",
   "status": "proved",
   "theorems": [
    "C07_index_bijection",
    "C07_pos_usize"
   ],
   "note": ""
  },
  {
   "property": "C08",
   "status": "proved",
   "theorems": [
    "C08_next_prev",
    "C08_next_prev_inverse"
   ],
   "note": ""
  },
  {
   "property": "C09",
   "status": "proved",
   "theorems": [
    "C09_full_iteration",
    "C09_index_order",
    "C09_axis_iteration"
   ],
   "note": ""
  },
  {
   "property": "C10",
   "status": "proved",
   "theorems": [
    "C10_deque_iteration"
   ],
   "note": ""
  },
  {
   "property": "C11",
   "status": "partial",
   "theorems": [
    "C11_size_hint_refuted",
    "C11_size_hint_partial"
   ],
   "note": "False of the code: the lower bound is not decreased as items are consumed, and iter_range reports the whole grid (C11_size_hint_refuted). The upper bound is always valid and the lower bound is on fresh iterators (C11_size_hint_partial). Exact behaviour: C61."
  },
  {
   "property": "C12",
   "status": "partial",
   "theorems": [
    "C12_iter_range_refuted",
    "C12_iter_range_partial"
   ],
   "note": "False of the code when the rectangle touches the last row but not the last column (C12_iter_range_refuted); proved for all other rectangles (C12_iter_range_partial). Exact behaviour in the failing case: C62."
  },
  {
   "property": "C13",
   "status": "proved",
   "theorems": [
    "C13_row_column_iteration"
   ],
   "note": ""
  },
  {
   "property": "C14",
   "status": "proved",
   "theorems": [
    "C14_tlbr_of"
   ],
   "note": ""
  },
  {
   "property": "C15",
   "status": "proved",
   "theorems": [
    "C15_manhattan",
    "C15_manhattan_metric"
   ],
   "note": ""
  },
  {
   "property": "C16",
   "status": "proved",
   "theorems": [
    "C16_inside"
   ],
   "note": ""
  },
  {
   "property": "C17",
   "status": "proved",
   "theorems": [
    "C17_flips",
    "C17_flip_involutions",
    "C17_corners_sides"
   ],
   "note": ""
  },
  {
   "property": "C18",
   "status": "proved",
   "theorems": [
    "C18_rotation",
    "C18_rotation_group"
   ],
   "note": ""
  },
  {
   "property": "C19",
   "status": "proved",
   "theorems": [
    "C19_tryfrom_pos"
   ],
   "note": ""
  },
  {
   "property": "C20",
   "status": "partial",
   "theorems": [
    "C20_named_positions_refuted",
    "C20_named_positions_partial"
   ],
   "note": "False only for the associated constants WIDTH / HEIGHT / SIZE of Pos when XMAX or YMAX is 65535: u16 overflow, a compile-time error when the constant is used (C20_named_positions_refuted). All the rest is C20_named_positions_partial."
  },
  {
   "property": "C21",
   "status": "proved",
   "theorems": [
    "C21_dir_rotation",
    "C21_dir_group"
   ],
   "note": ""
  },
  {
   "property": "C22",
   "status": "proved",
   "theorems": [
    "C22_dir_tuple",
    "C22_dir_tuple_neg"
   ],
   "note": ""
  },
  {
   "property": "C23",
   "status": "partial",
   "theorems": [
    "C23_dir_text_refuted",
    "C23_dir_text_partial"
   ],
   "note": "False of the code for Display of the four diagonals, whose two-letter names do not parse (C23_dir_text_refuted); everything else is C23_dir_text_partial. Exact behaviour: C64."
  },
  {
   "property": "C24",
   "status": "partial",
   "theorems": [
    "C24_dir_next_refuted",
    "C24_dir_iteration_partial"
   ],
   "note": "False of the code: next::<false> on NW panics (C24_dir_next_refuted). Iteration, and next on the directions iteration yields: C24_dir_iteration_partial. Exact behaviour of next: C65."
  },
  {
   "property": "C25",
   "status": "proved",
   "theorems": [
    "C25_pos_dir_add",
    "C25_pos_dir_reversible"
   ],
   "note": ""
  },
  {
   "property": "C26",
   "status": "proved",
   "theorems": [
    "C26_direction_to",
    "C26_no_shorter_walk"
   ],
   "note": ""
  },
  {
   "property": "C27",
   "status": "partial",
   "theorems": [
    "C27_int_tuples_refuted",
    "C27_int_tuples_partial"
   ],
   "note": "False of the code (C27_int_tuples_refuted); proved for (u8,u8), (u16,u16), (u32,u32) except the constants (C27_int_tuples_partial). Exact behaviour: C63."
  },
  {
   "property": "C28",
   "status": "proved",
   "theorems": [
    "C28_order",
    "C28_order_total"
   ],
   "note": ""
  },
  {
   "property": "C29",
   "status": "proved",
   "theorems": [
    "C29_grid_get_set",
    "C29_grid_fresh",
    "C29_grid_equality"
   ],
   "note": ""
  },
  {
   "property": "C30",
   "status": "partial",
   "theorems": [
    "C30_grid_size_refuted"
   ],
   "note": "False of the code: the associated constant with the size assertion is never evaluated, so a Grid with a wrong SIZE can be created and accessing it is undefined behaviour (C30_grid_size_refuted). Exact condition: C66."
  },
  {
   "property": "C31",
   "status": "proved",
   "theorems": [
    "C31_grid_flips"
   ],
   "note": ""
  },
  {
   "property": "C32",
   "status": "proved",
   "theorems": [
    "C32_grid_rotations",
    "C32_grid_four_turns"
   ],
   "note": ""
  },
  {
   "property": "C33",
   "status": "proved",
   "theorems": [
    "C33_grid_collect",
    "C33_grid_iterators"
   ],
   "note": ""
  },
  {
   "property": "C34",
   "status": "proved",
   "theorems": [
    "C34_grid_try_from_vecvec"
   ],
   "note": ""
  },
  {
   "property": "C35",
   "status": "partial",
   "theorems": [
    "C35_extend_from_vecvec_refuted",
    "C35_extend_from_vecvec_partial"
   ],
   "note": "False of the code for vectors with more than 65536 rows or columns: indices are truncated to 16 bits (C35_extend_from_vecvec_refuted). Proved for all other vectors (C35_extend_from_vecvec_partial). Exact behaviour for all vectors: C67."
  },
  {
   "property": "C36",
   "status": "proved",
   "theorems": [
    "C36_grid_lines",
    "C36_grid_extend"
   ],
   "note": ""
  },
  {
   "property": "C37",
   "status": "proved",
   "theorems": [
    "C37_gridbool_get_set",
    "C37_gridbool_repeat"
   ],
   "note": ""
  },
  {
   "property": "C38",
   "status": "proved",
   "theorems": [
    "C38_macro_sizes"
   ],
   "note": ""
  },
  {
   "property": "C39",
   "status": "proved",
   "theorems": [
    "C39_gridbool_iter",
    "C39_gridbool_iter_tf",
    "C39_gridbool_set_iter",
    "C39_gridbool_from_positions",
    "C39_gridbool_from_bools"
   ],
   "note": ""
  },
  {
   "property": "C40",
   "status": "proved",
   "theorems": [
    "C40_gridbool_flips"
   ],
   "note": ""
  },
  {
   "property": "C41",
   "status": "partial",
   "theorems": [
    "C41_gridbool_rotation_refuted",
    "C41_gridbool_rotation_partial"
   ],
   "note": "False of the code for squares with an even number of columns (C41_gridbool_rotation_refuted); proved for odd ones (C41_gridbool_rotation_partial). Exact behaviour for all squares: C69."
  },
  {
   "property": "C42",
   "status": "partial",
   "theorems": [
    "C42_gridbool_eq_refuted",
    "C42_gridbool_eq_partial"
   ],
   "note": "False of the code: spare bits are compared (C42_gridbool_eq_refuted). Proved for Gridbools derived from the same one by any sets, and for Gridbools without spare bits (C42_gridbool_eq_partial). Exact meaning: C70. C112 covers all Gridbools that come from a common Gridbool by any modifications."
  },
  {
   "property": "C43",
   "status": "proved",
   "theorems": [
    "C43_set_backends_gridbool",
    "C43_set_backends_std",
    "C43_map_backends"
   ],
   "note": "Gridbool for every Pos<XMAX,YMAX> and every WORDS that compiles; Grid with SIZE = number of positions for every grid-like type; std collections modelled by their contracts (association lists / sorted lists)."
  },
  {
   "property": "C44",
   "status": "proved",
   "theorems": [
    "C44_camefrom_sound"
   ],
   "note": "For any MapPos implementation whose get returns; grid-like position types (Pos, (u8,u8), (u16,u16))."
  },
  {
   "property": "C45",
   "status": "partial",
   "theorems": [
    "C45_camefrom_loop_refuted",
    "C45_camefrom_loop_partial"
   ],
   "note": "False in general: the limit of width*width+1 iterations reports Err(Loop) for good maps on grids with more rows than columns (refuted on Pos<0,2>). Holds when rows <= columns (partial); C71 gives the exact behaviour."
  },
  {
   "property": "C46",
   "status": "partial",
   "theorems": [
    "C46_bf_levels_refuted",
    "C46_bf_levels_partial"
   ],
   "note": "False when go(orig, d) = orig for some d: the origin is then yielded in the first vector (refuted). Proved for all other movement functions (partial); C72 is the exact statement for all of them."
  },
  {
   "property": "C47",
   "status": "proved",
   "theorems": [
    "C47_bf_complete"
   ],
   "note": "Includes the bound: at most as many vectors as positions. The origin itself is yielded (once) exactly when some move leaves it in place."
  },
  {
   "property": "C48",
   "status": "proved",
   "theorems": [
    "C48_bfs_shortest"
   ],
   "note": ""
  },
  {
   "property": "C49",
   "status": "partial",
   "theorems": [
    "C49_bfs_tall_grid_refuted",
    "C49_bfs_origin_refuted",
    "C49_bfs_complete_partial"
   ],
   "note": "False on grids with more rows than columns (Err(Loop) for a reachable goal) and for a goal at the origin (Err(DestinationUnreachable)). Proved for rows <= columns and goals other than the origin; C73 is the exact statement."
  },
  {
   "property": "C50",
   "status": "proved",
   "theorems": [
    "C50_ucs_valid"
   ],
   "note": "No assumption on the costs at all, not even that sums fit in usize."
  },
  {
   "property": "C51",
   "status": "partial",
   "theorems": [
    "C51_ucs_lowest_cost_refuted",
    "C51_ucs_lowest_cost_partial"
   ],
   "note": "False in general (refuted): an entry left in the queue by a dearer way into a position is popped later and overwrites the direction recorded for it. Proved when the cost of a move depends only on the position entered (partial)."
  },
  {
   "property": "C52",
   "status": "proved",
   "theorems": [
    "C52_ucs_iterator_order"
   ],
   "note": "Costs must be affordable (see C74). A position may be yielded again later (once per improvement queued); the order claim is about first yields."
  },
  {
   "property": "C53",
   "status": "partial",
   "theorems": [
    "C53_ucs_tall_grid_refuted",
    "C53_ucs_complete_partial"
   ],
   "note": "False on grids with more rows than columns (Err(Loop) for a reachable destination, refuted on Pos<0,2>). Proved for rows <= columns (partial); C74 is the exact statement. Costs must be affordable (see C74)."
  },
  {
   "property": "C54",
   "status": "proved",
   "theorems": [
    "C54_astar_valid"
   ],
   "note": ""
  },
  {
   "property": "C55",
   "status": "partial",
   "theorems": [
    "C55_astar_shortest_refuted",
    "C55_astar_diagonals_refuted",
    "C55_astar_shortest_partial"
   ],
   "note": "False with and without diagonals (both refuted): without, stale queue entries overwrite directions; with, the Manhattan heuristic overestimates. Proved without diagonals when the shortest walk has Manhattan length (partial); C76 is a positive result with diagonals."
  },
  {
   "property": "C56",
   "status": "partial",
   "theorems": [
    "C56_astar_tall_grid_refuted",
    "C56_astar_diagonals_refuted",
    "C56_astar_complete_partial"
   ],
   "note": "False on tall grids without diagonals, and with diagonals even on wide ones, where recorded directions can form a cycle (both refuted). Proved without diagonals for rows <= columns (partial); C75 is the exact statement."
  },
  {
   "property": "C57",
   "status": "proved",
   "theorems": [
    "C57_backend_independence"
   ],
   "note": "Equality of results for every fuel value, for bfs_path, astar_path and ucs_path."
  },
  {
   "property": "C58",
   "status": "proved",
   "theorems": [
    "C58_grid_display",
    "C58_gridbool_display",
    "C58_numeral_unique"
   ],
   "note": "The Formatter is modelled as an arbitrary padding function applied to every cell and label character; writing to it never fails. C58_numeral_unique shows that the text is determined by the statement."
  },
  {
   "property": "C59",
   "status": "proved",
   "theorems": [
    "C59_bool_and_default"
   ],
   "note": ""
  },
  {
   "property": "C60",
   "status": "proved",
   "theorems": [
    "C60_i32_conversion_exact"
   ],
   "note": ""
  },
  {
   "property": "C61",
   "status": "proved",
   "theorems": [
    "C61_size_hint_exact"
   ],
   "note": ""
  },
  {
   "property": "C62",
   "status": "proved",
   "theorems": [
    "C62_iter_range_exact"
   ],
   "note": ""
  },
  {
   "property": "C63",
   "status": "proved",
   "theorems": [
    "C63_int_tuples_exact"
   ],
   "note": ""
  },
  {
   "property": "C64",
   "status": "proved",
   "theorems": [
    "C64_dir_text_exact"
   ],
   "note": ""
  },
  {
   "property": "C65",
   "status": "proved",
   "theorems": [
    "C65_dir_next_exact"
   ],
   "note": ""
  },
  {
   "property": "C66",
   "status": "proved",
   "theorems": [
    "C66_grid_size_exact"
   ],
   "note": ""
  },
  {
   "property": "C67",
   "status": "proved",
   "theorems": [
    "C67_extend_from_vecvec_exact"
   ],
   "note": ""
  },
  {
   "property": "C68",
   "status": "partial",
   "theorems": [
    "C68_gridbool_int_tuple_refuted",
    "C68_gridbool_assert_partial"
   ],
   "note": "False of the code for (u8, u8): WIDTH and HEIGHT are MAX-MIN (C68_gridbool_int_tuple_refuted). C68_gridbool_assert_partial: what the assertion does guarantee. True for Pos types: C37_gridbool_repeat."
  },
  {
   "property": "C69",
   "status": "proved",
   "theorems": [
    "C69_gridbool_rotation_exact"
   ],
   "note": ""
  },
  {
   "property": "C70",
   "status": "proved",
   "theorems": [
    "C70_gridbool_eq_exact",
    "C70_gridbool_spare_bits",
    "C70_gridbool_repeat_bits"
   ],
   "note": ""
  },
  {
   "property": "C71",
   "status": "proved",
   "theorems": [
    "C71_camefrom_exact"
   ],
   "note": "Exact characterisation of all four outcomes together with C44."
  },
  {
   "property": "C72",
   "status": "proved",
   "theorems": [
    "C72_bf_levels_exact"
   ],
   "note": "Exact counterpart of C46."
  },
  {
   "property": "C73",
   "status": "proved",
   "theorems": [
    "C73_bfs_exact"
   ],
   "note": "Exact counterpart of C49."
  },
  {
   "property": "C74",
   "status": "proved",
   "theorems": [
    "C74_ucs_exact",
    "C74_small_costs_suffice"
   ],
   "note": "Exact counterpart of C53. affordable: the cost of every walk from orig that repeats no position fits in usize; C74_small_costs_suffice shows that largest cost * number of positions <= usize::MAX is enough."
  },
  {
   "property": "C75",
   "status": "proved",
   "theorems": [
    "C75_astar_exact"
   ],
   "note": "Exact counterpart of C56."
  },
  {
   "property": "C76",
   "status": "proved",
   "theorems": [
    "C76_astar_beeline"
   ],
   "note": ""
  },
  {
   "property": "C77",
   "status": "proved",
   "theorems": [
    "C77_astar_iterator"
   ],
   "note": ""
  },
  {
   "property": "C78",
   "status": "proved",
   "theorems": [
    "C78_pos_display"
   ],
   "note": ""
  },
  {
   "property": "C79",
   "status": "proved",
   "theorems": [
    "C79_gridbool_rectangle"
   ],
   "note": ""
  },
  {
   "property": "C80",
   "status": "partial",
   "theorems": [
    "C80_grid_storage_refuted",
    "C80_grid_storage_partial",
    "C80_origin_outside_ub"
   ],
   "note": "Refuted: safe calls with a position type larger than SIZE read or write outside of the arrays. Partial: SIZE >= number of positions gives the hash result; an origin outside of the storage is always undefined behaviour for ucs/astar."
  },
  {
   "property": "C81",
   "status": "proved",
   "theorems": [
    "C81_bf_any_type"
   ],
   "note": ""
  },
  {
   "property": "C82",
   "status": "proved",
   "theorems": [
    "C82_bfs_any_type",
    "C82_bfs_wide_tuples_panic"
   ],
   "note": "Exact outcome, including panics; covers every integer tuple type."
  },
  {
   "property": "C83",
   "status": "proved",
   "theorems": [
    "C83_ucs_any_type"
   ],
   "note": "Exact outcome, including panics; covers every integer tuple type. Costs must be affordable (see C74)."
  },
  {
   "property": "C84",
   "status": "proved",
   "theorems": [
    "C84_astar_any_type",
    "C84_astar_panics_only_far",
    "C84_astar_far_destination_panics"
   ],
   "note": "Exact outcome, including panics; covers every integer tuple type. The number of reachable positions plus the distance must fit usize. C84_astar_panics_only_far: where the distance from some reachable position cannot be computed."
  },
  {
   "property": "C85",
   "status": "proved",
   "theorems": [
    "C85_ucs_first_yields"
   ],
   "note": ""
  },
  {
   "property": "C86",
   "status": "proved",
   "theorems": [
    "C86_astar_first_yields"
   ],
   "note": ""
  },
  {
   "property": "C87",
   "status": "proved",
   "theorems": [
    "C87_ucs_constant_cost",
    "C87_bfs_ucs_agree",
    "C87_bfs_astar"
   ],
   "note": ""
  },
  {
   "property": "C88",
   "status": "proved",
   "theorems": [
    "C88_bfs_symmetric",
    "C88_bfs_triangle"
   ],
   "note": ""
  },
  {
   "property": "C89",
   "status": "proved",
   "theorems": [
    "C89_open_grid"
   ],
   "note": ""
  },
  {
   "property": "C90",
   "status": "proved",
   "theorems": [
    "C90_bfs_more_moves"
   ],
   "note": ""
  },
  {
   "property": "C91",
   "status": "proved",
   "theorems": [
    "C91_bf_mapmov"
   ],
   "note": ""
  },
  {
   "property": "C92",
   "status": "proved",
   "theorems": [
    "C92_ucs_mapmov"
   ],
   "note": ""
  },
  {
   "property": "C93",
   "status": "proved",
   "theorems": [
    "C93_astar_mapmov"
   ],
   "note": ""
  },
  {
   "property": "C94",
   "status": "proved",
   "theorems": [
    "C94_grid_history"
   ],
   "note": ""
  },
  {
   "property": "C95",
   "status": "partial",
   "theorems": [
    "C95_gridbool_history_partial",
    "C95_gridbool_history_refuted"
   ],
   "note": "False for rotations of squares with an even number of columns (refuted, consequence of C41); proved for all sequences without such rotations. C112 covers all Gridbools that come from a common Gridbool by any modifications."
  },
  {
   "property": "C96",
   "status": "proved",
   "theorems": [
    "C96_grid_flip_flip",
    "C96_grid_dihedral"
   ],
   "note": ""
  },
  {
   "property": "C97",
   "status": "partial",
   "theorems": [
    "C97_ucs_largest_cost_refuted",
    "C97_ucs_overflow_refuted",
    "C97_ucs_costs_partial"
   ],
   "note": "False: a lowest cost of exactly usize::MAX counts as unreachable, and a sum that overflows panics even after the destination was reached (both refuted). Proved when the largest cost times the number of positions fits usize; C74 has the weaker condition 'affordable'."
  },
  {
   "property": "C98",
   "status": "proved",
   "theorems": [
    "C98_grid_array"
   ],
   "note": ""
  },
  {
   "property": "C99",
   "status": "proved",
   "theorems": [
    "C99_gridbool_bitmap"
   ],
   "note": ""
  },
  {
   "property": "C100",
   "status": "proved",
   "theorems": [
    "C100_grid_order"
   ],
   "note": ""
  },
  {
   "property": "C101",
   "status": "partial",
   "theorems": [
    "C101_gridbool_order_refuted",
    "C101_gridbool_order_partial",
    "C101_gridbool_order_exact"
   ],
   "note": "False: spare bits are compared after the cells, so Gridbools alike everywhere can compare Greater (refuted). Proved for equal spare bits (partial); C101_gridbool_order_exact describes all cases. C112 covers all Gridbools that come from a common Gridbool by any modifications."
  },
  {
   "property": "C102",
   "status": "proved",
   "theorems": [
    "C102_bounded_text",
    "C102_error_text"
   ],
   "note": ""
  },
  {
   "property": "C103",
   "status": "proved",
   "theorems": [
    "C103_bfs_moved",
    "C103_ucs_moved"
   ],
   "note": ""
  },
  {
   "property": "C104",
   "status": "proved",
   "theorems": [
    "C104_ucs_scaled"
   ],
   "note": "For every number of steps. Both cost functions must be affordable (sums over simple paths below usize::MAX)."
  },
  {
   "property": "C105",
   "status": "proved",
   "theorems": [
    "C105_bfs_frame",
    "C105_ucs_frame",
    "C105_astar_frame"
   ],
   "note": "No hypotheses on position type, backend or closures beyond agreement on reachable positions."
  },
  {
   "property": "C106",
   "status": "proved",
   "theorems": [
    "C106_ucs_near_lowest"
   ],
   "note": "Generalises the part of C51 that holds (ratio 1). lo and hi are arbitrary."
  },
  {
   "property": "C107",
   "status": "partial",
   "theorems": [
    "C107_ucs_octile_refuted",
    "C107_ucs_octile_partial"
   ],
   "note": "Refuted by two walls on a 6x6 grid (cost 70 instead of 68): an entry left behind in the queue overwrites the recorded direction. The part proved: the cost is at most 7/5 of the lowest."
  },
  {
   "property": "C108",
   "status": "proved",
   "theorems": [
    "C108_any_queue"
   ],
   "note": "Queue.v states the searches over an abstract queue; SpecQueue.v is the contract."
  },
  {
   "property": "C109",
   "status": "proved",
   "theorems": [
    "C109_binary_heap"
   ],
   "note": "std is not part of the repository and its source was not at hand: its algorithms (BinaryHeap: push, pop, sift_up, sift_down_to_bottom) are modelled from knowledge of them, unchecked against the text, with a swap at each step in place of the hole."
  },
  {
   "property": "C110",
   "status": "proved",
   "theorems": [
    "C110_ucs_effort"
   ],
   "note": "Turns of the search loop are expressed by the fuel of the model's loops: any fuel above the bound (and above cols^2, the limit of the path reconstruction) gives the same result."
  },
  {
   "property": "C111",
   "status": "proved",
   "theorems": [
    "C111_astar_effort"
   ],
   "note": "As for C110. The quadratic bound with diagonals holds because every entry pushed for a position strictly lowers its recorded cost, which is the length of a walk without repetition."
  },
  {
   "property": "C112",
   "status": "proved",
   "theorems": [
    "C112_gridbool_history_exact",
    "C112_gridbool_history_eq",
    "C112_gridbool_history_order"
   ],
   "note": ""
  },
  {
   "property": "C113",
   "status": "partial",
   "theorems": [
    "C113_gridbool_dihedral_refuted",
    "C113_gridbool_dihedral_partial",
    "C113_gridbool_turns"
   ],
   "note": "False for squares with an even number of columns, whose four central cells do not rotate (refuted). Proved for odd numbers of columns (partial); C113_gridbool_turns gives the laws between rotations that hold in every square."
  },
  {
   "property": "C114",
   "status": "proved",
   "theorems": [
    "C114_maze_bfs"
   ],
   "note": ""
  },
  {
   "property": "C115",
   "status": "proved",
   "theorems": [
    "C115_flood_fill"
   ],
   "note": ""
  },
  {
   "property": "C116",
   "status": "proved",
   "theorems": [
    "C116_distance_map"
   ],
   "note": ""
  },
  {
   "property": "C117",
   "status": "proved",
   "theorems": [
    "C117_grid_reverse"
   ],
   "note": ""
  },
  {
   "property": "C118",
   "status": "proved",
   "theorems": [
    "C118_camefrom_simple",
    "C118_ucs_simple",
    "C118_astar_simple",
    "C118_bfs_simple"
   ],
   "note": ""
  },
  {
   "property": "C119",
   "status": "proved",
   "theorems": [
    "C119_astar_estimates",
    "C119_astar_detour"
   ],
   "note": ""
  },
  {
   "property": "C120",
   "status": "proved",
   "theorems": [
    "C120_maze_ucs",
    "C120_maze_astar"
   ],
   "note": ""
  },
  {
   "property": "C121",
   "status": "proved",
   "theorems": [
    "C121_bfs_first_path",
    "C121_bf_order"
   ],
   "note": ""
  },
  {
   "property": "C122",
   "status": "proved",
   "theorems": [
    "C122_bf_iter_effects",
    "C122_bfs_effects",
    "C122_ucs_effects",
    "C122_astar_effects",
    "C122_bfs_asks_once"
   ],
   "note": ""
  },
  {
   "property": "C123",
   "status": "proved",
   "theorems": [
    "C123_bfs_any_closures",
    "C123_ucs_any_closures",
    "C123_ucs_any_costs",
    "C123_astar_any_closures"
   ],
   "note": ""
  },
  {
   "property": "C124",
   "status": "proved",
   "theorems": [
    "C124_release_agrees",
    "C124_release_returns",
    "C124_release_overflow"
   ],
   "note": ""
  },
  {
   "property": "C125",
   "status": "proved",
   "theorems": [
    "C125_astar_diagonal_yields",
    "C125_astar_diagonal_detour"
   ],
   "note": ""
  },
  {
   "property": "C126",
   "status": "proved",
   "theorems": [
    "C126_ucs_moves",
    "C126_ucs_exact",
    "C126_astar_moves"
   ],
   "note": ""
  },
  {
   "property": "C127",
   "status": "proved",
   "theorems": [
    "C127_same_bfs",
    "C127_same_ucs",
    "C127_same_astar",
    "C127_wide_bfs",
    "C127_wide_ucs",
    "C127_wide_astar",
    "C127_small_costs_suffice"
   ],
   "note": "The first group of theorems is for grids whose numbers fit the usize of the target, the second for grids where only the square of the width does not; C127_small_costs_suffice gives a sufficient condition for affordable_on."
  },
  {
   "property": "C128",
   "status": "proved",
   "theorems": [
    "C128_bfs_placed",
    "C128_ucs_placed",
    "C128_astar_placed"
   ],
   "note": ""
  },
  {
   "property": "C129",
   "status": "proved",
   "theorems": [
    "C129_feeds",
    "C129_tables",
    "C129_room",
    "C129_bfs_hashed",
    "C129_ucs_hashed",
    "C129_astar_hashed"
   ],
   "note": "The table follows hashbrown in outline, from knowledge of it, unchecked against its source, which was not at hand (slot by slot instead of groups; a removal always leaves a tombstone). C129_feeds is about the derived Hash, C129_tables about histories of operations, the others about the searches."
  },
  {
   "property": "C130",
   "status": "proved",
   "theorems": [
    "C130_debug_reads_back",
    "C130_texts",
    "C130_values",
    "C130_grids"
   ],
   "note": "C130_debug_reads_back is the general theorem about trees of debug_tuple and debug_list calls; only the formats {:?} and {:#?} without width and flags. std's formatting helpers are modelled from knowledge of them; their source was not at hand."
  },
  {
   "property": "C131",
   "status": "proved",
   "theorems": [
    "C131_any_storage",
    "C131_any_map"
   ],
   "note": "The storage is called through the trait methods as pure functions of its state; an implementation with interior mutability seen from outside is not covered."
  },
  {
   "property": "C132",
   "status": "proved",
   "theorems": [
    "C132_btrees",
    "C132_balanced",
    "C132_searches"
   ],
   "note": "std is not part of the repository and its source was not at hand: the algorithms of its B-tree are modelled from knowledge of them, unchecked against the text. Lookup time is stated as the height of the tree; comparisons are not counted."
  },
  {
   "property": "C133",
   "status": "proved",
   "theorems": [
    "C133_bfs_path_exact",
    "C133_bfs_rest",
    "C133_bfs_replanned",
    "C133_bfs_part",
    "C133_bfs_unused"
   ],
   "note": ""
  },
  {
   "property": "C134",
   "status": "partial",
   "theorems": [
    "C134_ucs_rest_partial",
    "C134_ucs_replanned_partial",
    "C134_ucs_entering_partial",
    "C134_ucs_refuted",
    "C134_astar_refuted",
    "C134_astar_longer_refuted",
    "C134_astar_replanned_partial",
    "C134_astar_beeline_partial"
   ],
   "note": "False: with ucs_path and costs per move, and with astar_path, with and without diagonals, planning again can lead back and forth for ever; where it arrives it can take more moves than planned (all refuted). Proved: a ucs_path of lowest cost (always so if costs depend only on the position entered) is kept when planned again; astar_path without diagonals where no detour is needed, and with diagonals where nothing is in the way."
  },
  {
   "property": "C135",
   "status": "proved",
   "theorems": [
    "C135_checks_only_panic",
    "C135_bfs_any_type",
    "C135_ucs_any_type",
    "C135_astar_any_type",
    "C135_u32_bfs_loop",
    "C135_u32_ucs_loop",
    "C135_u32_astar_loop"
   ],
   "note": "A* with diagonals can report Loop below the limit too (its estimate is not consistent); without diagonals the limit alone decides. The distances to the destination are taken to be computable for A*."
  },
  {
   "property": "C136",
   "status": "proved",
   "theorems": [
    "C136_positions",
    "C136_grids",
    "C136_rotations",
    "C136_gridbools",
    "C136_new_gridbools",
    "C136_gridbool_rotations",
    "C136_sizes",
    "C136_camefrom"
   ],
   "note": "Functions that compute with neither usize nor a coordinate's integer type (repeat, Default, from_iter, Neg, the position iterators themselves) have one model for all targets. The searches are C127 and C135."
  },
  {
   "property": "C137",
   "status": "proved",
   "theorems": [
    "C137_unchecked",
    "C137_checked",
    "C137_out_of_range",
    "C137_from_index",
    "C137_rotations"
   ],
   "note": "manhattan() is covered by C136 where it fits and by C135 on the way of the searches."
  },
  {
   "property": "C138",
   "status": "proved",
   "theorems": [
    "C138_between",
    "C138_crossed"
   ],
   "note": ""
  },
  {
   "property": "C139",
   "status": "proved",
   "theorems": [
    "C139_right_of",
    "C139_below"
   ],
   "note": ""
  },
  {
   "property": "C140",
   "status": "proved",
   "theorems": [
    "C140_lines",
    "C140_whole_lines"
   ],
   "note": ""
  },
  {
   "property": "C141",
   "status": "proved",
   "theorems": [
    "C141_positions",
    "C141_searches"
   ],
   "note": ""
  },
  {
   "property": "C142",
   "status": "proved",
   "theorems": [
    "C142_flips",
    "C142_mirrors",
    "C142_manhattan",
    "C142_manhattan_total",
    "C142_rotations",
    "C142_index",
    "C142_steps",
    "C142_border"
   ],
   "note": ""
  },
  {
   "property": "C143",
   "status": "proved",
   "theorems": [
    "C143_grid",
    "C143_gridbool",
    "C143_safe",
    "C143_declared"
   ],
   "note": ""
  },
  {
   "property": "C144",
   "status": "proved",
   "theorems": [
    "C144_ucs_unused",
    "C144_ucs_part"
   ],
   "note": ""
  },
  {
   "property": "C145",
   "status": "proved",
   "theorems": [
    "C145_ucs_triangle",
    "C145_ucs_cheaper",
    "C145_ucs_symmetric"
   ],
   "note": ""
  },
  {
   "property": "C146",
   "status": "proved",
   "theorems": [
    "C146_ucs_near",
    "C146_astar_near",
    "C146_bfs_near"
   ],
   "note": ""
  },
  {
   "property": "C147",
   "status": "proved",
   "theorems": [
    "C147_astar_unused",
    "C147_astar_rest",
    "C147_astar_rest_unused",
    "C147_astar_replanned",
    "C147_astar_which",
    "C147_foremost_unique",
    "C147_astar_direct"
   ],
   "note": ""
  },
  {
   "property": "C148",
   "status": "proved",
   "theorems": [
    "C148_ucs",
    "C148_astar",
    "C148_binary_heap",
    "C148_own_order"
   ],
   "note": "The comparison of positions is a parameter of the heap here; C150 has it also in the trees of a BTreeMap. The algorithms of BinaryHeap are modelled from knowledge of them, as for C109."
  },
  {
   "property": "C149",
   "status": "proved",
   "theorems": [
    "C149_ucs_iterator",
    "C149_ucs_first_yields",
    "C149_astar_iterator",
    "C149_astar_first_yields"
   ],
   "note": "Any queue that pops an entry of the lowest cost, on any position type; PropOrder.v shows that the heap algorithms with any comparison of positions are such a queue."
  },
  {
   "property": "C150",
   "status": "proved",
   "theorems": [
    "C150_storage",
    "C150_sorted",
    "C150_bfs",
    "C150_ucs_any",
    "C150_astar_any",
    "C150_ucs",
    "C150_astar",
    "C150_any_comparison",
    "C150_laws_needed"
   ],
   "note": "The laws of Ord are asked for the values of the type only; C150_laws_needed shows that they are needed. The algorithms of the B-tree are modelled from knowledge of them, as for C132."
  },
  {
   "property": "C151",
   "status": "proved",
   "theorems": [
    "C151_applies",
    "C151_ucs_effort",
    "C151_astar_effort",
    "C151_simple",
    "C151_beeline",
    "C151_ucs_near",
    "C151_astar_near"
   ],
   "note": "Stated for any queue that pops an element of the lowest cost and any storage that acts as maps; C151_applies shows that a heap and trees with a lawful order of positions are such. As elsewhere, the bounds need costs and estimates that do not overflow; a search may panic where origin and destination are not retraceable (C148)."
  },
  {
   "property": "C152",
   "status": "proved",
   "theorems": [
    "C152_heap",
    "C152_ucs_exact",
    "C152_ucs_moves",
    "C152_astar_moves",
    "C152_ucs_same",
    "C152_astar_same"
   ],
   "note": "C152_heap shows that the heap of the crate, with a lawful order of positions, is such a queue; C151_applies shows which storage acts as maps. The exact path of UCS needs positive costs, as in C126; with zero costs and for A* C152_ucs_same and C152_astar_same say that the order determines the result, without telling the path."
  },
  {
   "property": "C153",
   "status": "proved",
   "theorems": [
    "C153_ucs_yields",
    "C153_one_list",
    "C153_ucs_crate",
    "C153_ucs_same",
    "C153_astar_same"
   ],
   "note": "C153_one_list shows that the list of elements is determined by its two conditions. C153_ucs_crate is for the crate's own types and its three kinds of storage. The exact list needs positive costs; with zero costs and for A* C153_ucs_same and C153_astar_same say that the order determines what is yielded, without telling the list."
  },
  {
   "property": "C154",
   "status": "proved",
   "theorems": [
    "C154_ucs_unused",
    "C154_ucs_part",
    "C154_ucs_rest",
    "C154_ucs_replanned",
    "C154_ucs_entering"
   ],
   "note": "For the position types of the crate, with its own heap and storage, see C134 and C144. That the path returned has the lowest cost is a hypothesis where costs depend on the position left, since the path returned need not have it then (C106); C154_ucs_entering does without it. Positions must be near enough for search_path to measure their distance (retraceable)."
  },
  {
   "property": "C155",
   "status": "proved",
   "theorems": [
    "C155_astar_rest_unused",
    "C155_astar_unused",
    "C155_astar_replanned",
    "C155_astar_which",
    "C155_foremost_unique",
    "C155_astar_direct"
   ],
   "note": "That the path returned is a shortest one is a hypothesis, since A* need not return one (C55); C155_astar_direct does without it. Hypotheses of the theorems: differences of coordinates to the destination do not overflow (measurable), the origin of the new search is within the limits of search_path (retraceable), costs fit in a usize, moves lead one step. For the position types of the crate, with its own heap and storage, see C147."
  }
 ]
}