{
 "claims": [
  {
   "property": "C01",
   "status": "partial",
   "theorems": [
    "C01_roundtrip_iff",
    "C01_roundtrip_partial",
    "C01_lossless_refuted",
    "C01_short_input_refuted"
   ],
   "note": "Exact characterisation of the data that round-trips; the unrestricted claim is refuted (runs of >=66 'A')."
  },
  {
   "property": "C02",
   "status": "proved",
   "theorems": [
    "C02_decode_safe"
   ],
   "note": "All NUL-terminated strings."
  },
  {
   "property": "C03",
   "status": "proved",
   "theorems": [
    "C03_charset"
   ],
   "note": ""
  },
  {
   "property": "C04",
   "status": "proved",
   "theorems": [
    "C04_save_load_identity",
    "C04_nonempty_output_refuted"
   ],
   "note": "Any registry within the format's limits, any valid acyclic graph of at most 65536 reachable nodes (the reference index is 16 bit), into an empty output vector; appending to a non-empty vector is refuted."
  },
  {
   "property": "C05",
   "status": "partial",
   "theorems": [
    "C05_generator_from_saved_graph",
    "C05_shipped_registry",
    "C05_unrestricted_refuted"
   ],
   "note": "Holds when the class initialisers agree with the metadata defaults; in the shipped registry all do except DistanceToPoint's distance function, for which the claim is refuted."
  },
  {
   "property": "C06",
   "status": "proved",
   "theorems": [
    "C06_load_total"
   ],
   "note": "All C strings; native stack depth is not modelled."
  },
  {
   "property": "C07",
   "status": "proved",
   "theorems": [
    "C07_loaded_graph_acyclic_typed",
    "C07_loaded_node_data_acyclic"
   ],
   "note": ""
  },
  {
   "property": "C08",
   "status": "partial",
   "theorems": [
    "C08_sources_all_or_none_partial",
    "C08_complete_refuted"
   ],
   "note": "The full claim is false of the code (\"DQQ=\" loads an FBm without source); proved: each node has all or none of its sources."
  },
  {
   "property": "C09",
   "status": "proved",
   "theorems": [
    "C09_fixup",
    "C09_valid_graph_untouched",
    "C09_plain_diverges_on_cycle",
    "C09_null_metadata_refuted"
   ],
   "note": "Every reachable node must have a type: a connected node with null metadata is dereferenced (refuted)."
  },
  {
   "property": "C10",
   "status": "proved",
   "theorems": [
    "C10_fails_iff_incomplete"
   ],
   "note": ""
  },
  {
   "property": "C11",
   "status": "proved",
   "theorems": [
    "C11_save_load_save",
    "C11_same_text_isomorphic",
    "C11_isomorphic_same_text"
   ],
   "note": ""
  },
  {
   "property": "C12",
   "status": "proved",
   "theorems": [
    "C12_linear_size"
   ],
   "note": ""
  },
  {
   "property": "C13",
   "status": "proved",
   "theorems": [
    "C13_version_skew"
   ],
   "note": "Position-wise: members are identified by index, as in the format."
  },
  {
   "property": "C14",
   "status": "proved",
   "theorems": [
    "C14_metadata_lists",
    "C14_overflow_refuted",
    "C14_split_groups_refuted"
   ],
   "note": "Provided no type declares an enum variable between two groups (no shipped type does); overflow of a table and split groups are refuted."
  },
  {
   "property": "C15",
   "status": "partial",
   "theorems": [
    "C15_shipped_ids_and_members",
    "C15_shipped_sizes",
    "C15_shipped_fits_encoding",
    "C15_defaults_partial",
    "C15_defaults_refuted"
   ],
   "note": "Everything except the default claim for Distance To Point, which is refuted."
  },
  {
   "property": "C16",
   "status": "partial",
   "theorems": [
    "C16_queries_exact",
    "C16_small_ids_rejected_partial",
    "C16_id_range_refuted"
   ],
   "note": "Every query is defined and answers exactly about the node id modulo 256 and the member index; ids in (46,255] are rejected; for other ids the claim is false (id 256 answers about node 0)."
  },
  {
   "property": "C17",
   "status": "proved",
   "theorems": [
    "C17_setters_exact",
    "C17_new_node"
   ],
   "note": "Every state a C program can build. Values are the stored member values; derived members (e.g. the cached scale of a range) are covered by C57."
  },
  {
   "property": "C18",
   "status": "proved",
   "theorems": [
    "C18_no_use_after_free",
    "C18_lives_iff_owned",
    "C18_handles_valid",
    "C18_no_leak",
    "C18_freed_once",
    "C18_drop_preserves_others",
    "C18_cycle_leaks_refuted"
   ],
   "note": "Single thread, every history of handle operations; leak freedom needs acyclic sources (a cycle leaks: refuted). Proved in full for the model: the property's own exception (no cycle) is the hypothesis."
  },
  {
   "property": "C19",
   "status": "partial",
   "theorems": [
    "C19_no_use_after_free",
    "C19_count_exact",
    "C19_one_destroyer",
    "C19_last_release_destroys",
    "C19_no_leak",
    "C19_releases_finish",
    "C19_relaxed_order_refuted"
   ],
   "note": "Proved for every sequentially consistent interleaving of atomic steps. In the C++ memory model the relaxed counter leaves a use in one thread unordered with the destruction in another (refuted); the model does not cover hardware reordering effects of that race."
  },
  {
   "property": "C20",
   "status": "partial",
   "theorems": [
    "C20_reference_valid",
    "C20_delete_last_refuted"
   ],
   "note": "References stay valid until deleted; deletion of the last reference never destroys the node (refuted for every program)."
  },
  {
   "property": "C21",
   "status": "partial",
   "theorems": [
    "C21_live_blocks_disjoint",
    "C21_alloc_succeeds",
    "C21_pool_in_malloc",
    "C21_one_byte_block_refuted",
    "C21_small_pool_refuted",
    "C21_oversized_request_refuted"
   ],
   "note": "All sequential histories of legal requests (at least 2 bytes, power-of-two alignment, fitting an empty pool of the configured size). Outside these the claim is false: three refutations."
  },
  {
   "property": "C22",
   "status": "proved",
   "theorems": [
    "C22_blocks_disjoint",
    "C22_alloc_fresh",
    "C22_lock_free"
   ],
   "note": "Any number of concurrent calls, every interleaving of their atomic steps (one atomic location)."
  },
  {
   "property": "C23",
   "status": "partial",
   "theorems": [
    "C23_reclaim_only_unused",
    "C23_concurrent_reclaim_refuted"
   ],
   "note": "Proved for sequential use; with a concurrent walk over the pool list the removal frees a pool in use (refuted)."
  },
  {
   "property": "C24",
   "status": "proved",
   "theorems": [
    "C24_grid2D",
    "C24_grid3D",
    "C24_grid4D",
    "C24_width_independent"
   ],
   "note": "Any register width, any float arithmetic, any counts >= 1 with a total below 2^31, for node code that is lane-wise (C51 shows the library's nodes are)."
  },
  {
   "property": "C25",
   "status": "proved",
   "theorems": [
    "C25_bulk_calls_fill_exactly"
   ],
   "note": "All five families of bulk calls; counts >= 1, total below 2^31 (C30 covers zero)."
  },
  {
   "property": "C26",
   "status": "proved",
   "theorems": [
    "C26_grid_range",
    "C26_ieee_grid_range"
   ],
   "note": "Non-NaN values; order laws as hypotheses, discharged for IEEE comparison with the std:: and SSE minimum and maximum."
  },
  {
   "property": "C27",
   "status": "proved",
   "theorems": [
    "C27_position_array"
   ],
   "note": "Every count >= 1 and every number of axes."
  },
  {
   "property": "C28",
   "status": "proved",
   "theorems": [
    "C28_bulk_is_single"
   ],
   "note": "For lane-wise node code (C51)."
  },
  {
   "property": "C29",
   "status": "partial",
   "theorems": [
    "C29_tile_periodic",
    "C29_neighbours_equidistant",
    "C29_step_bound",
    "C29_seam_error",
    "C29_exact_seam_refuted"
   ],
   "note": "In real arithmetic: exact for the ideal constant 1/(2 pi); with the constant of the source the seam is off by less than 3e-7 of the circle's radius, and not exact. Float rounding of sin, cos and products is not modelled."
  },
  {
   "property": "C30",
   "status": "partial",
   "theorems": [
    "C30_zero_rows_refuted",
    "C30_zero_columns_refuted",
    "C30_empty_array_refuted",
    "C30_zero_rows_partial"
   ],
   "note": "The claim is false; proved what the code does."
  },
  {
   "property": "C31",
   "status": "partial",
   "theorems": [
    "C31_seed_injective",
    "C31_coordinate_injective",
    "C31_neighbour",
    "C31_order_independent",
    "C31_hash31_range",
    "C31_hash31_collisions",
    "C31_value_noise_refuted"
   ],
   "note": "Injectivity of the untruncated hash for all 2^32 seeds and coordinates; after truncation collisions exist and are exhibited (gradient hash31: exactly complementary pairs; value noise: h and -h)."
  },
  {
   "property": "C32",
   "status": "proved",
   "theorems": [
    "C32_perlin2",
    "C32_common",
    "C32_perlin4",
    "C32_simplex2",
    "C32_simplex4",
    "C32_simplex_paths_agree",
    "C32_simplex_nodes_agree"
   ],
   "note": "Real arithmetic: every feature-set branch of the gradient helpers equals the dot product with an explicit gradient table indexed by the hash. The Simplex and SuperSimplex nodes therefore give the same value at every level."
  },
  {
   "property": "C33",
   "status": "proved",
   "theorems": [
    "C33_value_range"
   ],
   "note": "Real arithmetic, 2D-4D, every seed, offset, frequency and range lo <= hi."
  },
  {
   "property": "C34",
   "status": "proved",
   "theorems": [
    "C34_value_continuous",
    "C34_perlin_continuous"
   ],
   "note": "Continuity at every position (epsilon-delta in all coordinates jointly), so in particular across borders; every SIMD code path for Perlin."
  },
  {
   "property": "C35",
   "status": "partial",
   "theorems": [
    "C35_lattice_points",
    "C35_range_2d",
    "C35_bound",
    "C35_range_3d_refuted",
    "C35_range_4d_refuted"
   ],
   "note": "Lattice points: proved in all dimensions. Output range: proved in 2D (the bounding constant is tight to 3e-8), refuted in 3D and 4D by concrete positions; there a bound of 1.5 times the nominal deviation is proved."
  },
  {
   "property": "C36",
   "status": "proved",
   "theorems": [
    "C36_distance",
    "C36_order_irrelevant"
   ],
   "note": "Real arithmetic; positions within the integer range, distances below kInfinity, size jitter >= -1."
  },
  {
   "property": "C37",
   "status": "proved",
   "theorems": [
    "C37_value",
    "C37_lookup"
   ],
   "note": "Real arithmetic; independent of the uninitialised arrays. On ties any of the equally distant cells may be returned."
  },
  {
   "property": "C38",
   "status": "partial",
   "theorems": [
    "C36_distance",
    "C38_equal_indices",
    "C38_equal_indices_refuted",
    "C38_zero_distance_nan_refuted"
   ],
   "note": "Holds unless the distance function is Euclidean and both indices are equal, which is refuted (square root taken twice); in binary32 a zero Euclidean distance gives NaN."
  },
  {
   "property": "C39",
   "status": "proved",
   "theorems": [
    "C39_blends",
    "C39_constant_operand"
   ],
   "note": "Real arithmetic; lane lifting is C51."
  },
  {
   "property": "C40",
   "status": "proved",
   "theorems": [
    "C40_smooth_min",
    "C40_symmetric",
    "C40_smooth_max_mirror",
    "C40_smooth_max"
   ],
   "note": "Real arithmetic."
  },
  {
   "property": "C41",
   "status": "proved",
   "theorems": [
    "C41_fade"
   ],
   "note": "Real arithmetic."
  },
  {
   "property": "C42",
   "status": "partial",
   "theorems": [
    "C42_pow_int_partial",
    "C42_pow_int_refuted"
   ],
   "note": "Exact for exponents >= 2; refuted for exponents below 2 (the square is returned)."
  },
  {
   "property": "C43",
   "status": "proved",
   "theorems": [
    "C43_remap",
    "C43_inverted_clamp_refuted"
   ],
   "note": "Real arithmetic."
  },
  {
   "property": "C44",
   "status": "proved",
   "theorems": [
    "C44_smoothness_source",
    "C44_steps",
    "C44_smooth",
    "C44_monotone"
   ],
   "note": "Real arithmetic."
  },
  {
   "property": "C45",
   "status": "proved",
   "theorems": [
    "C45_ping_pong",
    "C45_fractal_bound",
    "C45_one_octave"
   ],
   "note": "Real arithmetic."
  },
  {
   "property": "C46",
   "status": "proved",
   "theorems": [
    "C46_fbm",
    "C46_fbm_unweighted",
    "C46_ridged"
   ],
   "note": "Real arithmetic, any number of octaves."
  },
  {
   "property": "C47",
   "status": "proved",
   "theorems": [
    "C47_rotation_isometry",
    "C47_rotate_2d",
    "C47_rotate_2d_half_turn",
    "C47_domain_nodes",
    "C47_remove_dimension",
    "C47_compose",
    "C47_rotate_plane",
    "C47_rotate_plane_nodes"
   ],
   "note": "Real arithmetic."
  },
  {
   "property": "C48",
   "status": "partial",
   "theorems": [
    "C48_compose",
    "C48_cancel",
    "C48_member",
    "C48_cellular",
    "C48_domain_warp_twice"
   ],
   "note": "Proved for seed offset nodes and seed offset members; for domain warp nodes the offset is shown to be applied twice (the 'exactly once' part is false there)."
  },
  {
   "property": "C49",
   "status": "proved",
   "theorems": [
    "C49_cache_transparent",
    "C49_no_failure",
    "C49_nested_refuted",
    "C49_stale_refuted",
    "C49_signed_zero_refuted"
   ],
   "note": "Register level (any number of lanes), any graph whose other nodes are lane-wise programs asking their sources, any query history on one thread. The three provisos are shown necessary by concrete binary32 executions."
  },
  {
   "property": "C50",
   "status": "proved",
   "theorems": [
    "C50_rgba8",
    "C50_monotone"
   ],
   "note": "Real arithmetic."
  },
  {
   "property": "C51",
   "status": "proved",
   "theorems": [
    "C51_lane_wise",
    "C51_width_and_neighbours",
    "C51_bulk",
    "C51_grid3D",
    "C51_uninitialised_refuted"
   ],
   "note": "Every node class of the library (graphs as trees of NodeEval_Model; the cache is C49), every arithmetic, feature set and register width; FastSIMD operations are lane-wise by assumption. The refutation: at finite positions whose distance overflows, CellularValue returns an uninitialised register."
  },
  {
   "property": "C52",
   "status": "proved",
   "theorems": [
    "C52_gradient_axis_bound",
    "C52_zero_amplitude",
    "C52_euclidean_refuted",
    "C52_fractal_axis_bound",
    "C52_fractal_zero_amplitude"
   ],
   "note": "Real arithmetic, gradient warp (2D, 3D, 4D), any seed, position, amplitude source and axis scaling. The Euclidean bound the metadata documents is refuted (C52_euclidean_refuted). The fractal variants are bounded by the geometric sum of the amplitudes. The simplex warp variants are the subject of C62\u2013C65."
  },
  {
   "property": "C53",
   "status": "proved",
   "theorems": [
    "C53_gradient_is_warp",
    "C53_fractal",
    "C53_gradient_sum",
    "C53_one_octave",
    "C53_seed_offset_twice_refuted"
   ],
   "note": "Real arithmetic, every warp that has the form is_warp (proved for the gradient warp), any number of octaves, weighted strength included. Finding: the plain node counts the seed offset twice, the fractals once (C53_seed_offset_twice_refuted)."
  },
  {
   "property": "C54",
   "status": "proved",
   "theorems": [
    "C54_refines_mailboxes",
    "C54_delivered_once_intact",
    "C54_oversized_rejected",
    "C54_no_buffer_keeps_message",
    "C54_crashed_send_invisible",
    "C54_send_is_its_writes",
    "C54_256_messages_refuted",
    "C54_small_buffer_refuted",
    "C54_overwritten_refuted",
    "C54_release_splits_refuted",
    "C54_torn_read_refuted"
   ],
   "note": "POSIX variant; one call is one step, partial sends by their list of writes. The _refuted statements are what lies outside the claim."
  },
  {
   "property": "C55",
   "status": "proved",
   "theorems": [
    "C55_fifo_exactly_once",
    "C55_fifo_at_most_once",
    "C55_no_lost_wakeup",
    "C55_calls_come_to_rest",
    "C55_no_deadlock",
    "C55_shutdown_wakes_all",
    "C55_only_current_accepted",
    "C55_results_fifo",
    "C55_no_stale_results",
    "C55_without_drain_refuted",
    "C55_version_wraps_refuted"
   ],
   "note": "Any number of threads, every schedule, spurious wake-ups included. A critical section is one step; the unlocked read in ShouldKillThread is not modelled."
  },
  {
   "property": "C56",
   "status": "proved",
   "theorems": [
    "C56_node_name",
    "C56_never_empty",
    "C56_characters_kept",
    "C56_member_name",
    "C56_library_names"
   ],
   "note": "ASCII names (isdigit etc. are undefined on other bytes)."
  },
  {
   "property": "C57",
   "status": "partial",
   "theorems": [
    "C57_output_range",
    "C57_rotation",
    "C57_terrace",
    "C57_output_min_rounding_refuted"
   ],
   "note": "All call histories in real arithmetic; in binary32 the output range part is refuted."
  },
  {
   "property": "C58",
   "status": "proved",
   "theorems": [
    "C58_displacement",
    "C58_true_nearest"
   ],
   "note": "Real arithmetic."
  },
  {
   "property": "C59",
   "status": "proved",
   "theorems": [
    "C59_simplex2_all_vertices",
    "C59_supersimplex2_all_vertices",
    "C59_supersimplex3_all_vertices",
    "C59_simplex2_continuous",
    "C59_supersimplex2_continuous",
    "C59_supersimplex3_continuous",
    "C59_simplex2_code",
    "C59_supersimplex2_code",
    "C59_simplex2_code_seams",
    "C59_supersimplex2_code_seams",
    "C59_vertices_neutral",
    "C59_vertices_neutral3"
   ],
   "note": "Real arithmetic. 3D SuperSimplex with the constants of the code; 2D with the constants before rounding to float (any skew factor), and with the constants of the code up to 1/10000 of the output range."
  },
  {
   "property": "C60",
   "status": "proved",
   "theorems": [
    "C60_simplex3",
    "C60_simplex4",
    "C60_supersimplex4",
    "C60_supersimplex4_all_vertices",
    "C60_supersimplex4_seams",
    "C60_vertices_neutral",
    "C60_vertices_neutral4",
    "C60_simplex4_code",
    "C60_supersimplex4_code"
   ],
   "note": "Real arithmetic. 3D with the constants of the code, 4D exactly with the constants before rounding to float, and with the float constants of the code up to 1/300 (Simplex) or 1/200 (SuperSimplex) of half the output range, over the vertices of a surrounding simplex, or all vertices within squared distance 71/100."
  },
  {
   "property": "C61",
   "status": "partial",
   "theorems": [
    "C61_simplex3_seam_refuted",
    "C61_simplex4_seam_refuted",
    "C61_supersimplex4_seam_refuted"
   ],
   "note": "False of the code: a discontinuity is exhibited for Simplex 3D (constants of the code), Simplex 4D and SuperSimplex 4D (constants before rounding). What holds is C59 (continuity in 2D and for SuperSimplex 3D) and C60 (jumps of SuperSimplex 4D below 1/2500)."
  },
  {
   "property": "C62",
   "status": "partial",
   "theorems": [
    "C62_outer2",
    "C62_outer3",
    "C62_outer4",
    "C62_ortho2",
    "C62_ortho3",
    "C62_simplex_warps_agree",
    "C62_ortho4_levels_refuted"
   ],
   "note": "Proved for the outer product scheme in 2D, 3D and 4D and for the orthogonal matrix in 2D and 3D (real arithmetic, table entries the floats of the code). The orthogonal matrix in 4D differs between AVX512, AVX2 and the other levels: C62_ortho4_levels_refuted."
  },
  {
   "property": "C63",
   "status": "partial",
   "theorems": [
    "C63_length2",
    "C63_length3",
    "C63_length4_partial",
    "C63_length4_refuted"
   ],
   "note": "Proved in 2D and 3D. 4D: holds on AVX512 for the half of the hashes whose row permutation is 0, 1, 2 or 4 (C63_length4_partial); for the others the matrix can be singular (C63_length4_refuted)."
  },
  {
   "property": "C64",
   "status": "partial",
   "theorems": [
    "C64_supersimplex_keeps_length",
    "C64_simplex_keeps_length_refuted"
   ],
   "note": "Proved of SuperSimplex, refuted of Simplex (DomainWarpSimplex.inl:912, -2.0/2.0 where -2.0/3.0 is meant)."
  },
  {
   "property": "C65",
   "status": "proved",
   "theorems": [
    "C65_simplex_is_warp",
    "C65_supersimplex_is_warp",
    "C65_simplex2_all_vertices",
    "C65_supersimplex2_all_vertices",
    "C65_supersimplex3_all_vertices",
    "C65_simplex2_continuous",
    "C65_supersimplex2_continuous",
    "C65_supersimplex3_continuous",
    "C65_zero_amplitude",
    "C65_seed_offset",
    "C65_fractal",
    "C65_simplex3",
    "C65_simplex4",
    "C65_supersimplex4"
   ],
   "note": "Real arithmetic. 2D with the lattice constants before rounding to float, 3D with the constants of the code; the other theorems for any constants and dimension. For Simplex 3D and the 4D warps (outer product) the vertices are those of the surrounding simplex or, for SuperSimplex 4D, all within squared distance 18/25, as in C60."
  },
  {
   "property": "C66",
   "status": "partial",
   "theorems": [
    "C66_simplex2",
    "C66_supersimplex2",
    "C66_simplex3_matrix",
    "C66_supersimplex3_product",
    "C66_supersimplex3_matrix_half",
    "C66_simplex4_partial",
    "C66_supersimplex4_partial",
    "C66_simplex3_product_partial",
    "C66_simplex3_product_refuted",
    "C66_node"
   ],
   "note": "Real arithmetic. 2D both nodes and schemes (lattice constants before rounding), 3D with the constants of the code, 4D for the outer product scheme (constants before rounding). Simplex 3D with the outer product is refuted (1.7 times the amplitude, the wrong constant of C64) and bounded by twice the amplitude. Missing: the 4D orthogonal matrix (differs between levels, C62), rounded lattice constants in 2D and 4D."
  },
  {
   "property": "C67",
   "status": "proved",
   "theorems": [
    "C67_simplex2",
    "C67_supersimplex2",
    "C67_simplex3",
    "C67_supersimplex3",
    "C67_simplex4",
    "C67_supersimplex4",
    "C67_simplex4_unrounded",
    "C67_supersimplex4_unrounded"
   ],
   "note": "Real arithmetic, with the float constants of the code in 2D, 3D and 4D (the _unrounded theorems: 4D with the constants before rounding, smaller tolerance). The bounds over a continuum come from a verified interval subdivision (Boxes.v, BoxesSound.v, BoxesAll.v), run in the kernel by vm_compute (BoxesRun*.v)."
  },
  {
   "property": "C68",
   "status": "partial",
   "theorems": [
    "C68_levels",
    "C68_same_tables"
   ],
   "note": "Real arithmetic with the fast approximate reciprocal square root taken as exact; every node class. C68_levels: graphs without a simplex warp in the matrix scheme, any two levels and widths. C68_same_tables: any graph, levels with equal AVX512 and AVX2 flags. The matrix scheme between AVX512/AVX2/other levels is left out: in 4D it is refuted by C62_ortho4_levels_refuted; below 4D single warps agree by C62_simplex_warps_agree."
  },
  {
   "property": "C69",
   "status": "proved",
   "theorems": [
    "C69_one_quad_per_crossing"
   ],
   "note": "Real arithmetic (no NaN); indices as unbounded integers, which fit (C72_case). The brightness, which only chooses the diagonal, is an arbitrary function of cell and point code."
  },
  {
   "property": "C70",
   "status": "proved",
   "theorems": [
    "C70_closed_surface",
    "C70_one_fan"
   ],
   "note": "Any density field on the infinite grid; the polygons are those C69 finds in the index buffer, before each is cut in two triangles. C70_one_fan: the polygons at a vertex are connected through sides at the vertex."
  },
  {
   "property": "C71",
   "status": "proved",
   "theorems": [
    "C71_vertex_is_mean",
    "C71_mesh_vertices"
   ],
   "note": "Real arithmetic."
  },
  {
   "property": "C72",
   "status": "proved",
   "theorems": [
    "C72_only_generated",
    "C72_derivative_reads"
   ],
   "note": "C72_only_generated for the surface (positions and indices), the brightness being given as a function; C72_derivative_reads for the indices that the derivative of the brightness reads."
  },
  {
   "property": "C73",
   "status": "proved",
   "theorems": [
    "C73_one_square_per_exposed_face",
    "C73_outward"
   ],
   "note": "Real arithmetic for densities and brightness (no NaN), integer positions; chunk size at least 1; the light constants are parameters."
  },
  {
   "property": "C74",
   "status": "proved",
   "theorems": [
    "C74_one_quad_per_square",
    "C74_only_generated"
   ],
   "note": "Real arithmetic for heights, integer positions; the light of a square is an arbitrary function of its corners."
  }
 ]
}