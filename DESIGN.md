# Formal model of FastNoise2 in Rocq (Coq 8.16.1)

## Layout

`rocq/theories/` (logical name `Verif`). An area `X` consists of

* `X_Model.v`  – the code of /repo transcribed as total Gallina functions; every definition cites file:lines;
* `X_Spec.v` (or the "Specification" section at the head of `P_X.v`) – what the English property says, not using model helpers;
* `X_Proofs.v`, `NodeTree_*.v`, `Lattice.v`, `OrderStats.v`, `Bits.v`, `Lanes.v` – lemmas;
* `P_X.v`      – the property theorems, each followed by `Print Assumptions`, with non-vacuity `Example`s beside them.

Naming: `Cnn_name` proves property Cnn (or the named part of it); `Cnn_name_partial` proves a restriction and its comment says
what is missing; `Cnn_name_refuted` proves, on a concrete reachable witness, that the claim fails outside the stated
conditions, i.e. exhibits a defect or a limit of the code.

## Modelling conventions

* Bounded integers are `Z` with explicit wrap-around (`u8`, `u16`, `u32`, `u64`, `s32`) at the places where C++ wraps.
* Loops whose bound is not syntactic are fuelled; running out of fuel is a *distinct outcome* (`NoFuel`) and the
  proofs show it does not happen (or, in refutations, that no amount of fuel is enough).
* Undefined behaviour (out-of-bounds access, null dereference) is a distinct outcome (`UB`), not a default value.
* `assert` is compiled out (release build, `NDEBUG`).
* SIMD: the node code is written over FastSIMD's `float32v`/`int32v`/`mask32v`. `Simd_Model.v` gives it over an arbitrary
  scalar arithmetic `sops` and an arbitrary register shape `simd`; `lanes n` is a register of n lanes, `scalar` a single
  value. C51 proves the two agree lane by lane, so value properties are stated over `scalar`.
* Floating point: structure and memory properties take the float operations as arbitrary functions, so they hold
  for IEEE arithmetic whatever its rounding. Value properties (ranges, continuity, bounds) are proved in the instance
  `Rops` over the real numbers: the rounding of binary32 is then NOT covered, which each such claim's note in MANIFEST.json
  says. `Simd_F32.v` is the binary32 instance (Flocq), used for refutations that need rounding, infinities or NaN.
* Float→int conversion is exact in the model (in the code it saturates outside |x| < 2^31, and `Convert<int32_t>` rounds
  to nearest even, as the model does).
* Concurrency: small-step interleaving semantics with one atomic memory operation per step (sequential consistency).
* Uninitialised locals (`valueHash` in CellularValue, `cellX…` in CellularLookup) are parameters (`junk`) of the model; C37 proves
  the result does not depend on them under its hypotheses, C51_uninitialised_refuted that it does otherwise.

## Per-property plan

| id | model | proof | limits of the statement |
|----|-------|-------|------|
| C01 | `Base64_Model` Encode/Decode on byte lists | factor into plain base64 and run-length coding; invariant on the `appendChar` state | exact iff-condition; full claim refuted |
| C02 | `Decode` with checked reads and writes | two-pass invariant: pass 2 consumes exactly the characters pass 1 counted | input is a NUL-terminated C string |
| C03 | `Encode` | invariant over `appendChar` | |
| C04, C11, C12 | `NodeTree_Model`: node heap, serialiser, deserialisers, node-end stack | relational invariant: decoding the bytes appended by a node consumes exactly them and appends the nodes in the same post-order; token grammar (`NodeTree_Tokens`) | ≤ 65536 reachable nodes |
| C05 | + `NodeTree_Gen` (generator instances) | member-by-member comparison | class initialisers = metadata defaults (DistanceToPoint refuted) |
| C06–C08 | same decoders with checked accesses | fuel sufficiency by remaining bytes; heap invariant "children are older" | native stack depth (recursion) not modelled; text is a NUL-free C string of length < 2^50 |
| C09 | serialiser with `fixUp` on arbitrary graphs | path set grows inside a finite node set | nodes have metadata |
| C10 | serialiser | case analysis by induction on the graph | |
| C13 | two registries | prefix argument on member lists | members identified by position, as the format does |
| C14–C15 | `MetaVector_Model`, `Registry_Model` (the complete shipped registry) | contiguous-push invariant; closed computation on the finite table | |
| C16–C17 | `CApi_Model` | case analysis, frame lemmas | setters change stored values; derived members are C57 |
| C18 | `SmartNode_Model` | invariant count = number of owning handles | counters unbounded (the code's is 32 bit) |
| C19 | `RefThreads_Model` | interleaving invariant | sequential consistency; relaxed ordering refuted separately |
| C20 | `CRef_Model` | as C18 | |
| C21 | `Alloc_Model` | live blocks vs pool bumps | requests ≥ 2 bytes, power-of-two alignment, fitting an empty pool; malloc returns disjoint suitably aligned memory |
| C22–C23 | `PoolThreads_Model` | interleaving invariant on the CAS word; witness schedule | one atomic location per pool |
| C24–C28, C30 | `Batch_Model` | index-vector invariant: lane l = coordinates of index+l; divergence for empty rows | lane-wise node code (given by C51), total < 2^31 |
| C29 | tile coordinates over R | trigonometric identities, interval bound on the constant | real arithmetic |
| C31 | `Utils_Model` hashing on 32-bit integers | odd multipliers are invertible mod 2^32 | |
| C32 | gradient helpers of `Utils_Model`, every feature branch | case analysis on the index bits, explicit gradient tables | real arithmetic |
| C33–C35 | `Nodes_Model` Value/Perlin | convexity of lerp; epsilon-delta continuity glued at cell borders (`Lattice.v`); extremal analysis in 2D | real arithmetic |
| C36–C38 | `Cellular_Model` | fold of the traversal = list of the 3^n cells; order statistics of an insertion network (`OrderStats.v`) | real arithmetic |
| C39–C50 | `Nodes_Model`, `Setters_Model`, `Cache_Model` | algebra over R; C49 a refinement of the stateful evaluator by the pure one | C49: one thread, immutable graph |
| C51 | `NodeEval_Model` (graph as AST) | logical relation between the n-lane and the one-lane instance of the code (`Lanes.v`), mutual induction on the graph | FastSIMD operations act lane by lane (assumption: its sources are not in /repo) |
| C52–C53 | `Warp_Model` | convex combination of hash values; induction on octaves | real arithmetic |
| C54 | `Ipc_Model` (POSIX variant) | refinement of a pair of mailboxes | one call = one step, except partial sends, which are prefixes of the list of writes |
| C55 | `Queues_Model` | history invariant; progress measure | a critical section is one step; `ShouldKillThread`'s unlocked read is not modelled |
| C56 | `Names_Model` on byte lists | induction | ASCII |
| C57 | `Setters_Model` | invariant over call histories | real arithmetic; binary32 refuted |
| C58 | `Cellular_Model` | displacement bound ⇒ search radius suffices | real arithmetic |
| C59 | `Simplex_Model`, spec in `Simplex_Spec` | visited vertices = all vertices in reach (quadratic-form bounds), sum over a finite support, continuity of the sum | real arithmetic; 2D exact with unrounded constants, error bound for the float constants |
| C60 | same | the comparisons sort the coordinates ⇒ path of the simplex; 4D search = arg max over the 16 corners; five-coordinate bounds for the left-out vertex | real arithmetic; 4D exact with unrounded constants, and up to a stated tolerance with the float constants |
| C61 | same | one-sided limits at a border differ | refuted for Simplex 3D/4D and SuperSimplex 4D |
| C62 | `SimplexWarp_Model`, tables in `SimplexWarp_Spec` | the multiply-and-mask index arithmetic is division with remainder by 3 or 5; case split on the index only | integer comparisons signed; `avx2` of the model stands for the AVX flag; constexpr float sums exact |
| C63–C64 | same | entries bounded by literals, linear algebra by `nra` | refuted in 4D, and for the Simplex reorientation |
| C65 | same | the warp tail is linear in the vector sum; vertices in reach from C59; glued continuity | real arithmetic; 2D unrounded constants |
| C66 | same | length of the summed vector bounded in every direction by the box subdivision checker of C67 and Cauchy-Schwarz; refutation by a concrete seed and position | real arithmetic; tolerance stated; 4D matrix not covered |
| C67 | Simplex and SuperSimplex nodes, as in C59/C60 | sum of bumps bounded for every position and every gradient choice by a verified box subdivision checker (`Boxes*.v`), run on 63-bit machine integers (`Boxes63.v`: proved to refine the checker on Z, no overflow) | real arithmetic; tolerance stated |
| C68 | whole node graphs (`NodeEval_Model`), feature sets `feat` | induction over the graph: the only level-dependent code (gradient tables, fast square root, warp vectors) equals one level-free function in exact arithmetic (C32, C62); width by C51 | real arithmetic, so rounding differences are not bounded; 4D matrix warp excluded (refuted in C62) |
| C69 | `Mesh_Model` | invariant of the vertex list and lookup map (index found iff stored), carried through the three loops with the running cell index; diagonals and flips by cases | real arithmetic, no NaN; brightness abstract |
| C70 | `Mesh_Model`, table facts in `Mesh_Local` | all 256 sign patterns of a cell checked once: the table sends two edges of a face on one piece of surface to one vertex; then the pairing on each face is a function of the four signs of the face, so both cells agree; one connected piece per vertex by a checked reachability table | polygons before triangulation |
| C71 | `Mesh_Model` | table fact (at least three edges, all crossing) for all 256 patterns; positions as mean by linear interpolation | real arithmetic |
| C72 | `Mesh_Model` | two arrays equal on the generated range give equal meshes, loop by loop | derivative: index bounds only |
| C73 | `Bloxel_Model` | invariant of the vertex and index lists over the cells done, loops by induction with the running index; a face in local coordinates (axis, side, the two other axes) covers the six cases of the code | real arithmetic, no NaN |
| C74 | `Height_Model` | same, over squares | real arithmetic; light abstract |

## Trusted base

1. Coq 8.16.1: kernel (including its virtual machine, used by `vm_compute`), parser and `coqc`.
2. The transcription of the C++ code into the `*_Model.v` files (read as text; nothing was executed).
3. FastSIMD: its sources are not in /repo. Each operation is modelled by its documented meaning, applied lane by lane.
   `FS::InvSqrt`, `FS::Reciprocal` are the exact functions over R (hardware gives estimates refined by Newton steps).
4. The C++ compiler, standard library, operating system and CPU implement their specifications; `malloc` returns fresh
   memory; POSIX shared memory, `std::mutex` and `std::condition_variable` behave as specified (spurious wake-ups included).
5. The standard-library axioms listed below. No axiom is declared in this development.

### Code that is modelled

| /repo file | lines | model |
|---|---|---|
| src/FastNoise/Base64.h | all | Base64_Model |
| src/FastNoise/Metadata.cpp | 37-80, 88-632, 634-685 | MetaVector_Model, NodeTree_Model, Names_Model |
| include/FastNoise/Metadata.h | member descriptors, Vector, NodeData | Registry_Model, MetaVector_Model, NodeTree_Model |
| src/FastNoise/FastNoise_C.cpp | all entry points except the plain forwarding of the Gen* calls and of SIMD level queries | CApi_Model, CRef_Model |
| src/FastNoise/FastSIMD_Build.inl | registration order | Registry_Model |
| include/FastNoise/Utility/SmartNode.h, src/FastNoise/SmartNode.cpp | all but the iterator-like accessors | SmartNode_Model, RefThreads_Model, Alloc_Model, PoolThreads_Model |
| include/FastNoise/Generators/Generator.h, .inl | sources, bulk generation, OutputMinMax | Batch_Model, SmartNode_Model, Utils_Model |
| Generators/BasicGenerators, Value, Perlin, Fractal, Blends, Modifiers, DomainWarp, DomainWarpFractal, Cellular (.h/.inl) | every Gen/GenT and every setter that derives members | Nodes_Model, Setters_Model, Warp_Model, Cellular_Model, Cache_Model, NodeEval_Model |
| Generators/Utils.inl | all | Utils_Model |
| Generators/Simplex.inl | Simplex and SuperSimplex, 2D, 3D, 4D (the vertex search is shared with DomainWarpSimplex.inl, whose text is the same); irrational constants are parameters of the model, instantiated with the floats of the code or with their exact values | Simplex_Model |
| Generators/DomainWarpSimplex.inl | DomainWarpSimplex and DomainWarpSuperSimplex, 2D, 3D, 4D, both vectorization schemes, all SIMD branches of the vertex matrices; the vertex search is that of Simplex_Model | SimplexWarp_Model |
| tools/NodeEditorIpc/NodeEditorIpc_C.cpp | 33-285, POSIX branch | Ipc_Model |
| tools/NodeEditor/MultiThreadQueues.h | all but ShouldKillThread | Queues_Model |
| tools/NodeEditor/MeshNoisePreview.cpp, util/DmcTable.inl | 444-1006 (the block, dual marching cubes and height map meshes) without the generation calls and the brightness values of the last two | Bloxel_Model, Mesh_Model, Height_Model |

### Code that is not modelled

The Windows branch of the IPC code; the node editor GUI
(tools/NodeEditor other than the queues and the preview meshes); the benchmark and test programs; CMake; the FastSIMD dispatch (feature-set selection at
run time): the feature set is a parameter of the model instead. Exceptions from allocation failure, native stack
overflow, signed overflow in `int` counters other than those cited, and hardware memory reordering are outside the model.

### Axioms reported by `Print Assumptions`

Only axioms of the Coq standard library occur:

* `fe`  = `Coq.Logic.FunctionalExtensionality.functional_extensionality_dep`
* `cl`  = `Coq.Logic.Classical_Prop.classic`
* `sfd` = `Coq.Reals.ClassicalDedekindReals.sig_forall_dec`
* `snd` = `Coq.Reals.ClassicalDedekindReals.sig_not_dec`

(the last two construct the real numbers; the opaque symbols of `Coq.Reals.Rdefinitions` that a scan of module interfaces
also lists, and the `ssrunder` interface pulled in by Flocq's dependencies, are sealed module fields with definitions, not axioms a
theorem here depends on.)


i63 stands for the primitive 63-bit machine integers of Coq and their specifications in the standard library (`Coq.Numbers.Cyclic.Int63`), used only to run the bound checker of C66 and C67: `PrimInt63.add`, `PrimInt63.asr`, `PrimInt63.compare`, `PrimInt63.div`, `PrimInt63.divs`, `PrimInt63.eqb`, `PrimInt63.int`, `PrimInt63.land`, `PrimInt63.leb`, `PrimInt63.lesb`, `PrimInt63.lor`, `PrimInt63.lsl`, `PrimInt63.lsr`, `PrimInt63.ltb`, `PrimInt63.ltsb`, `PrimInt63.mul`, `PrimInt63.sub`, `Sint63.asr_spec`, `Sint63.div_spec`, `Sint63.leb_spec`, `Sint63.ltb_spec`, `Uint63.add_spec`, `Uint63.compare_def_spec`, `Uint63.div_spec`, `Uint63.eqb_correct`, `Uint63.eqb_refl`, `Uint63.leb_spec`, `Uint63.lor_spec`, `Uint63.lsl_spec`, `Uint63.lsr_spec`, `Uint63.ltb_spec`, `Uint63.mul_spec`, `Uint63.of_to_Z`, `Uint63.sub_spec`. Not every theorem marked i63 uses all of them.

* none ("Closed under the global context"): `C01_lossless_refuted`, `C01_roundtrip_iff`, `C01_roundtrip_partial`, `C01_short_input_refuted`, `C02_decode_safe`, `C03_charset`, `C04_nonempty_output_refuted`, `C04_save_load_identity`, `C05_generator_from_saved_graph`, `C05_shipped_registry`, `C05_unrestricted_refuted`, `C06_load_total`, `C07_loaded_graph_acyclic_typed`, `C07_loaded_node_data_acyclic`, `C08_complete_refuted`, `C08_sources_all_or_none_partial`, `C09_fixup`, `C09_null_metadata_refuted`, `C09_plain_diverges_on_cycle`, `C09_valid_graph_untouched`, `C10_fails_iff_incomplete`, `C11_isomorphic_same_text`, `C11_same_text_isomorphic`, `C11_save_load_save`, `C12_linear_size`, `C13_version_skew`, `C14_metadata_lists`, `C14_overflow_refuted`, `C14_split_groups_refuted`, `C15_defaults_partial`, `C15_defaults_refuted`, `C15_shipped_fits_encoding`, `C15_shipped_ids_and_members`, `C15_shipped_sizes`, `C16_id_range_refuted`, `C16_queries_exact`, `C16_small_ids_rejected_partial`, `C17_new_node`, `C17_setters_exact`, `C18_cycle_leaks_refuted`, `C18_drop_preserves_others`, `C18_freed_once`, `C18_handles_valid`, `C18_lives_iff_owned`, `C18_no_leak`, `C18_no_use_after_free`, `C19_count_exact`, `C19_last_release_destroys`, `C19_no_leak`, `C19_no_use_after_free`, `C19_one_destroyer`, `C19_relaxed_order_refuted`, `C19_releases_finish`, `C20_delete_last_refuted`, `C20_reference_valid`, `C21_alloc_succeeds`, `C21_live_blocks_disjoint`, `C21_one_byte_block_refuted`, `C21_oversized_request_refuted`, `C21_pool_in_malloc`, `C21_small_pool_refuted`, `C22_alloc_fresh`, `C22_blocks_disjoint`, `C22_lock_free`, `C23_concurrent_reclaim_refuted`, `C23_reclaim_only_unused`, `C24_grid2D`, `C24_grid3D`, `C24_grid4D`, `C24_width_independent`, `C25_bulk_calls_fill_exactly`, `C26_grid_range`, `C26_ieee_grid_range`, `C27_position_array`, `C28_bulk_is_single`, `C30_empty_array_refuted`, `C30_zero_columns_refuted`, `C30_zero_rows_partial`, `C30_zero_rows_refuted`, `C31_coordinate_injective`, `C31_hash31_collisions`, `C31_hash31_range`, `C31_neighbour`, `C31_order_independent`, `C31_seed_injective`, `C31_value_noise_refuted`, `C39_constant_operand`, `C48_cancel`, `C48_cellular`, `C48_compose`, `C48_domain_warp_twice`, `C48_member`, `C49_cache_transparent`, `C49_no_failure`, `C51_bulk`, `C51_grid3D`, `C51_lane_wise`, `C51_width_and_neighbours`, `C54_256_messages_refuted`, `C54_crashed_send_invisible`, `C54_delivered_once_intact`, `C54_no_buffer_keeps_message`, `C54_oversized_rejected`, `C54_overwritten_refuted`, `C54_refines_mailboxes`, `C54_release_splits_refuted`, `C54_send_is_its_writes`, `C54_small_buffer_refuted`, `C54_torn_read_refuted`, `C55_calls_come_to_rest`, `C55_fifo_at_most_once`, `C55_fifo_exactly_once`, `C55_no_deadlock`, `C55_no_lost_wakeup`, `C55_no_stale_results`, `C55_only_current_accepted`, `C55_results_fifo`, `C55_shutdown_wakes_all`, `C55_version_wraps_refuted`, `C55_without_drain_refuted`, `C56_characters_kept`, `C56_library_names`, `C56_member_name`, `C56_never_empty`, `C56_node_name`, `C72_derivative_reads`, `C73_outward`
* sfd: `C74_only_generated`
* fe, sfd: `C36_order_irrelevant`, `C50_monotone`, `C69_one_quad_per_crossing`, `C70_closed_surface`, `C70_one_fan`, `C71_mesh_vertices`, `C71_vertex_is_mean`, `C72_only_generated`, `C73_one_square_per_exposed_face`, `C74_one_quad_per_square`
* fe, sfd, snd: `C29_neighbours_equidistant`, `C29_tile_periodic`, `C47_rotation_isometry`, `C58_displacement`
* cl, fe, sfd, snd: `C29_exact_seam_refuted`, `C29_seam_error`, `C29_step_bound`, `C32_common`, `C32_perlin2`, `C32_perlin4`, `C32_simplex2`, `C32_simplex4`, `C32_simplex_nodes_agree`, `C32_simplex_paths_agree`, `C33_value_range`, `C34_perlin_continuous`, `C34_value_continuous`, `C35_bound`, `C35_lattice_points`, `C35_range_2d`, `C35_range_3d_refuted`, `C35_range_4d_refuted`, `C36_distance`, `C37_lookup`, `C37_value`, `C38_equal_indices`, `C38_equal_indices_refuted`, `C38_zero_distance_nan_refuted`, `C39_blends`, `C40_smooth_max`, `C40_smooth_max_mirror`, `C40_smooth_min`, `C40_symmetric`, `C41_fade`, `C42_pow_int_partial`, `C42_pow_int_refuted`, `C43_inverted_clamp_refuted`, `C43_remap`, `C44_monotone`, `C44_smooth`, `C44_smoothness_source`, `C44_steps`, `C45_fractal_bound`, `C45_one_octave`, `C45_ping_pong`, `C46_fbm`, `C46_fbm_unweighted`, `C46_ridged`, `C47_compose`, `C47_domain_nodes`, `C47_remove_dimension`, `C47_rotate_2d`, `C47_rotate_2d_half_turn`, `C47_rotate_plane`, `C47_rotate_plane_nodes`, `C49_nested_refuted`, `C49_signed_zero_refuted`, `C49_stale_refuted`, `C50_rgba8`, `C51_uninitialised_refuted`, `C52_euclidean_refuted`, `C52_fractal_axis_bound`, `C52_fractal_zero_amplitude`, `C52_gradient_axis_bound`, `C52_zero_amplitude`, `C53_fractal`, `C53_gradient_is_warp`, `C53_gradient_sum`, `C53_one_octave`, `C53_seed_offset_twice_refuted`, `C57_output_min_rounding_refuted`, `C57_output_range`, `C57_rotation`, `C57_terrace`, `C58_true_nearest`, `C59_simplex2_all_vertices`, `C59_simplex2_code`, `C59_simplex2_code_seams`, `C59_simplex2_continuous`, `C59_supersimplex2_all_vertices`, `C59_supersimplex2_code`, `C59_supersimplex2_code_seams`, `C59_supersimplex2_continuous`, `C59_supersimplex3_all_vertices`, `C59_supersimplex3_continuous`, `C59_vertices_neutral`, `C59_vertices_neutral3`, `C60_simplex3`, `C60_simplex4`, `C60_simplex4_code`, `C60_supersimplex4`, `C60_supersimplex4_all_vertices`, `C60_supersimplex4_code`, `C60_supersimplex4_seams`, `C60_vertices_neutral`, `C60_vertices_neutral4`, `C61_simplex3_seam_refuted`, `C61_simplex4_seam_refuted`, `C61_supersimplex4_seam_refuted`, `C62_ortho2`, `C62_ortho3`, `C62_ortho4_levels_refuted`, `C62_outer2`, `C62_outer3`, `C62_outer4`, `C62_simplex_warps_agree`, `C63_length2`, `C63_length3`, `C63_length4_partial`, `C63_length4_refuted`, `C64_simplex_keeps_length_refuted`, `C64_supersimplex_keeps_length`, `C65_fractal`, `C65_seed_offset`, `C65_simplex2_all_vertices`, `C65_simplex2_continuous`, `C65_simplex3`, `C65_simplex4`, `C65_simplex_is_warp`, `C65_supersimplex2_all_vertices`, `C65_supersimplex2_continuous`, `C65_supersimplex3_all_vertices`, `C65_supersimplex3_continuous`, `C65_supersimplex4`, `C65_supersimplex_is_warp`, `C65_zero_amplitude`, `C66_node`, `C66_simplex3_product_refuted`, `C68_levels`, `C68_same_tables`
* cl, fe, i63, sfd, snd: `C66_simplex2`, `C66_simplex3_matrix`, `C66_simplex3_product_partial`, `C66_simplex4_partial`, `C66_supersimplex2`, `C66_supersimplex3_matrix_half`, `C66_supersimplex3_product`, `C66_supersimplex4_partial`, `C67_simplex2`, `C67_simplex3`, `C67_simplex4`, `C67_simplex4_unrounded`, `C67_supersimplex2`, `C67_supersimplex3`, `C67_supersimplex4`, `C67_supersimplex4_unrounded`
