{
 "claims": [
  {
   "property": "C01",
   "status": "proved",
   "theorems": [
    "c01_integer_lattice",
    "c01_product_lattice",
    "c01_lexicographic_lattice",
    "c01_pointstamp_lattice",
    "c01_altneu_lattice"
   ],
   "note": "Integers (any totally ordered time with max/min), unit, Product, lexicographic pairs, PointStamp and AltNeu."
  },
  {
   "property": "C02",
   "status": "proved",
   "theorems": [
    "c02_advance_by_invisible",
    "c02_advance_by_empty",
    "c02_advance_by_extensive"
   ],
   "note": "For every lattice, frontier and time."
  },
  {
   "property": "C03",
   "status": "proved",
   "theorems": [
    "c03_advance_by_canonical",
    "c03_advance_by_idempotent",
    "c03_advance_by_monotone"
   ],
   "note": "For every lattice and non-empty frontier."
  },
  {
   "property": "C04",
   "status": "proved",
   "theorems": [
    "c04_antichain_join",
    "c04_antichain_join_into",
    "c04_antichain_meet",
    "c04_antichain_unique",
    "c04_antichain_order",
    "c04_antichain_is_lattice"
   ],
   "note": "For every lattice; results determined up to order by uniqueness of antichains."
  },
  {
   "property": "C05",
   "status": "proved",
   "theorems": [
    "c05_integers",
    "c05_wrapping",
    "c05_present",
    "c05_unit",
    "c05_tuples",
    "c05_tuples_semigroup",
    "c05_tuples_multiply",
    "c05_vectors",
    "c05_vectors_multiply",
    "c05_vector_zero_identity_refuted"
   ],
   "note": "All difference.rs implementations; vectors up to trailing zeros (structural identity refuted)."
  },
  {
   "property": "C06",
   "status": "proved",
   "theorems": [
    "c06_consolidate",
    "c06_canonical",
    "c06_consolidate_from"
   ],
   "note": "The in-place loop with explicit bounds checks, for any sort; consolidate_updates is the same function at pairs."
  },
  {
   "property": "C07",
   "status": "proved",
   "theorems": [
    "c07_builder_conserves",
    "c07_builder_finish_drains",
    "c07_chunker_conserves",
    "c07_chunker_finish_drains"
   ],
   "note": "Both builders as state machines, with arbitrary capacities and clients that overwrite lent containers."
  },
  {
   "property": "C08",
   "status": "proved",
   "theorems": [
    "c08_batcher_partitions",
    "c08_chains_geometric"
   ],
   "note": "MergeBatcher over VecMerger for every sequence of pushes (of non-empty consolidated chunks, what the chunker emits) and seals; the uppers need not even be monotone. The generic lemma is reusable for other mergers."
  },
  {
   "property": "C09",
   "status": "proved",
   "theorems": [
    "c09_merge",
    "c09_extract",
    "c09_merge_empty_chunk_refuted"
   ],
   "note": "VecMerger merge and extract for any chunk boundaries and output capacities; chunks must be non-empty (needed: refuted otherwise)."
  },
  {
   "property": "C10",
   "status": "proved",
   "theorems": [
    "c10_val_batch_reads_back",
    "c10_key_batch_reads_back",
    "c10_val_builder_needs_consolidated_input_refuted"
   ],
   "note": "OrdValBuilder and OrdKeyBuilder with explicit offset arrays and the singleton optimisation; any cut of the input into containers. Refuted for unconsolidated input (recorded as a precondition)."
  },
  {
   "property": "C11",
   "status": "proved",
   "theorems": [
    "c11_val_batches_readable",
    "c11_key_batches_readable",
    "c11_val_merge_begins",
    "c11_key_merge_begins",
    "c11_val_merge",
    "c11_key_merge"
   ],
   "note": "OrdValMerger and OrdKeyMerger for all batches that can come to exist, all compaction frontiers and all fuel sequences."
  },
  {
   "property": "C12",
   "status": "proved",
   "theorems": [
    "c12_advance_counts_prefix",
    "c12_val_seek",
    "c12_key_seek"
   ],
   "note": "advance for every predicate monotone on the range, and seek_key/seek_val of both batch cursors from every position."
  },
  {
   "property": "C13",
   "status": "proved",
   "theorems": [
    "c13_merged_cursor_presents_union",
    "c13_union_holds_all_updates",
    "c13_batches"
   ],
   "note": "For sources of any kind that present sorted tries, any number of them, under all navigation that seeks values only at shared keys."
  },
  {
   "property": "C14",
   "status": "proved",
   "theorems": [
    "c14_trace_accumulations",
    "c14_trace_moves_times"
   ],
   "note": ""
  },
  {
   "property": "C15",
   "status": "proved",
   "theorems": [
    "c15_trace_tiles",
    "c15_advance_upper"
   ],
   "note": "Batches tile [minimum, upper); each stands for a consecutive non-empty group of inserted batches; read_upper and advance_upper as documented."
  },
  {
   "property": "C16",
   "status": "proved",
   "theorems": [
    "c16_batches_through",
    "c16_batches_all",
    "c16_val_cursor_through"
   ],
   "note": "batches_through for every frontier at or beyond the physical compaction frontier that is a boundary of inserted batches; composed with the cursor list for ord_neu batches (c16_val_cursor_through)."
  },
  {
   "property": "C17",
   "status": "proved",
   "theorems": [
    "c17_trace_never_panics_and_keeps_pace"
   ],
   "note": "No legal history panics; per-layer size bounds; number of layers logarithmic in the volume inserted and exerted."
  },
  {
   "property": "C18",
   "status": "proved",
   "theorems": [
    "c18_handles_protected",
    "c18_reads_through_handles",
    "c18_only_own_commands_move_a_handle",
    "c18_handles_only_advance",
    "c18_last_handle_releases"
   ],
   "note": "All interleavings of clone, drop, set_logical/physical_compaction on any number of handles, with any writer activity, over every batch type meeting BatchLaws. Rc counts are modelled as liveness of handles; logging is not modelled."
  },
  {
   "property": "C19",
   "status": "proved",
   "theorems": [
    "c19_listener_receives_history",
    "c19_import_sends_everything",
    "c19_import_in_pieces",
    "c19_import_until",
    "c19_writer_rejects_gaps"
   ],
   "note": "All writer histories and attachment points, any number of queues; also import_core and import_frontier_core. Activation (scheduling) is not modelled: queues may be emptied at any time."
  },
  {
   "property": "C20",
   "status": "proved",
   "theorems": [
    "c20_arrange_never_fails",
    "c20_arrange_partitions",
    "c20_arrange_capabilities",
    "c20_arrange_reads"
   ],
   "note": "arrange_core over chunker, merge batcher (any merger meeting MergerLaws; VecMerger shown to), any builder meeting builds (OrdVal, OrdKey shown to), trace agents and spine: no panics, contiguous non-empty intervals to the input frontier, exact consolidated contents, capabilities, and what handles read"
  },
  {
   "property": "C21",
   "status": "proved",
   "theorems": [
    "c21_join_never_panics",
    "c21_join_accumulates",
    "c21_join_drains",
    "c21_join_capabilities",
    "c21_cursor_tactic_joins",
    "c21_val_join"
   ],
   "note": "The whole operator (start-up over pre-loaded traces, acknowledgement protocol, deferred work, draining by budget, trace maintenance) over all schedules of its environment; for any tactic meeting the contract `joins`, with the cursor tactic of join_core shown to meet it, and ord_neu batches as the concrete instance."
  },
  {
   "property": "C22",
   "status": "proved",
   "theorems": [
    "c22_think_is_cross_product",
    "c22_bilinear_wave_is_cross_product",
    "c22_think_accumulates"
   ],
   "note": "Both code paths of the per-key join, and bilinear_wave."
  },
  {
   "property": "C23",
   "status": "partial",
   "theorems": [
    "c23_reduce_linear_past_partial",
    "c23_reduce_total_order_partial",
    "c23_reduce_reads_partial",
    "c23_reduce_abelian",
    "c23_count_partial",
    "c23_threshold_partial",
    "c23_distinct_partial",
    "c23_reduce_refuted"
   ],
   "note": "Proved for every schedule of insertions, deliveries and activations of the operator, at every closed time whose past is totally ordered (hence everywhere for totally ordered times), also for what handles read from the output trace, and for count, threshold and distinct. Without that condition the claim is false of the code: c23_reduce_refuted is a concrete run of the modelled operator with pairs as times."
  },
  {
   "property": "C24",
   "status": "partial",
   "theorems": [
    "c24_reduce_round_partial"
   ],
   "note": "The round theorem says what one retire leaves behind for keys and times in general; missing is that pended times cover every time at which output may still change (refuted by c23_reduce_refuted for partially ordered times)."
  },
  {
   "property": "C25",
   "status": "proved",
   "theorems": [
    "c25_reduce_never_fails",
    "c25_reduce_batches",
    "c25_reduce_capabilities"
   ],
   "note": "The operator never panics under the stated schedule and its output batches tile the times up to its frontier, each holding only updates within its bounds; when messages are sent promptly it holds capabilities for pending work only."
  },
  {
   "property": "C26",
   "status": "proved",
   "theorems": [
    "c26_count_total",
    "c26_count_total_runs"
   ],
   "note": "Over any readable batches and every run (insertions, compaction, merging, deliveries in any grouping) of an arrangement made along with the operator; assumes no empty batch is left on the stream when others are delivered, which arrange and import ensure."
  },
  {
   "property": "C27",
   "status": "proved",
   "theorems": [
    "c27_threshold_semigroup",
    "c27_threshold_total",
    "c27_threshold_total_runs"
   ],
   "note": "As for C26; also for threshold_semigroup with functions that report the changes of a function that is zero for an absent record."
  },
  {
   "property": "C28",
   "status": "proved",
   "theorems": [
    "c28_upsert_never_fails",
    "c28_upsert_latest_value",
    "c28_upsert_reads",
    "c28_upsert_batches"
   ],
   "note": "arrange_from_upsert over totally ordered times, over the trace/writer/agent model, any BatchLaws batch and readable cursor; all delivery schedules and other readers' commands; value_as_of spec is the latest upsert, greatest among ties."
  },
  {
   "property": "C29",
   "status": "proved",
   "theorems": [
    "c29_variable_equation",
    "c29_variable",
    "c29_variable_new",
    "c29_iterate",
    "c29_iterate_new"
   ],
   "note": "Loops as a message-passing machine: source, body, feedback with delayed times and dropped overflow; any delivery order. Hypotheses settled/answered say that nothing that matters waits on an edge and that the body, any operator, has said what its function of the accumulated collection is. Example c29_halving."
  },
  {
   "property": "C30",
   "status": "proved",
   "theorems": [
    "c30_map",
    "c30_flat_map",
    "c30_filter",
    "c30_explode",
    "c30_join_function",
    "c30_negate",
    "c30_concat",
    "c30_concatenate",
    "c30_consolidate_stream",
    "c30_antijoin"
   ],
   "note": "map, flat_map, filter, explode, join_function, negate, concat(enate), consolidate_stream as functions on messages; antijoin over any semijoin output that satisfies C21. Not modelled: inspect side effects, timely's scheduling."
  },
  {
   "property": "C31",
   "status": "proved",
   "theorems": [
    "c31_enter",
    "c31_leave",
    "c31_enter_leave",
    "c31_enter_at",
    "c31_results_in",
    "c31_delay",
    "c31_refinements",
    "c31_enter_cursor",
    "c31_enter_at_cursor",
    "c31_enter_description",
    "c31_enter_compaction",
    "c31_enter_at_compaction",
    "c31_entered_trace"
   ],
   "note": "enter, leave, enter_at, results_in, delay on streams; enter.rs and enter_at.rs wrappers (cursors, descriptions, compaction frontiers), also composed with any history of the trace."
  },
  {
   "property": "C32",
   "status": "proved",
   "theorems": [
    "c32_cursor",
    "c32_deterministic",
    "c32_window",
    "c32_times_beyond_since_refuted",
    "c32_compaction_past_until_refuted"
   ],
   "note": "The original statement 'no time that is not beyond since' is false when since has several elements (c32_times_beyond_since_refuted); the property now says advanced to since. Finding: compaction passed through the wrapper beyond `until` changes later accumulations (c32_compaction_past_until_refuted)."
  },
  {
   "property": "C33",
   "status": "proved",
   "theorems": [
    "c33_panics_only_if_time_regresses",
    "c33_in_order_once",
    "c33_flush",
    "c33_drop"
   ],
   "note": "InputSession (update, update_at, flush, advance_to, drop, insert/remove wrappers) over a model of the timely input handle; for every legal sequence of calls."
  },
  {
   "property": "C34",
   "status": "partial",
   "theorems": [
    "c34_reader_never_wrong",
    "c34_reader_complete",
    "c34_published",
    "c34_next",
    "c34_statements",
    "c34_round_trip",
    "c34_repeats_within_a_message_refuted",
    "c34_progress_writer_stalls_refuted",
    "c34_source_never_panics",
    "c34_source_at_most_once",
    "c34_source_frontier_sound",
    "c34_source_message_times",
    "c34_source_complete",
    "c34_source_message_times_refuted"
   ],
   "note": "Reader: iterator::Iter. Writers: both operators of sink::build. Source: all four operators of source::build on any number of workers, any schedule and delivery order. Three limits are refuted: repeats within one message (reader), the progress writer's queue once the frontier stops, and capabilities of the source with partially ordered times."
  },
  {
   "property": "C35",
   "status": "partial",
   "theorems": [
    "c35_new_reads_the_same",
    "c35_equality",
    "c35_order_join_meet",
    "c35_in_place_variants",
    "c35_minimum_and_total_order",
    "c35_slice_order",
    "c35_slice_equality_refuted",
    "c35_slice_equality_partial"
   ],
   "note": "Order, join, meet, minimum, equality between PointStamps and order against slices are coordinate-wise. Equality against slices is refuted in general (it ignores coordinates beyond the left operand) and proved when the right operand is not longer."
  },
  {
   "property": "C36",
   "status": "partial",
   "theorems": [
    "c36_results_in",
    "c36_monotone_in_time",
    "c36_monotone_in_summary",
    "c36_composition_of_defined_partial",
    "c36_composition_without_overflow",
    "c36_composition_forgets_overflow_refuted",
    "c36_feedback",
    "c36_leave"
   ],
   "note": "Coordinate-wise action, monotonicity in time and in summary, feedback and leave exact. Composition agrees whenever both steps are defined, and exactly when coordinates cannot overflow; refuted in general: followed_by forgets an overflow in a coordinate that the second summary drops."
  },
  {
   "property": "C37",
   "status": "proved",
   "theorems": [
    "c37_half_join",
    "c37_half_join_complete",
    "c37_half_join_progress",
    "c37_half_join_capabilities",
    "c37_two_half_joins_pairs",
    "c37_two_half_joins",
    "c37_nat_strictly",
    "c37_nat_weakly",
    "c37_strictly_needs_earlier_refuted",
    "c37_pairs",
    "c37_altneu_order",
    "c37_altneu_total_order",
    "c37_altneu_partial_order_refuted"
   ],
   "note": "The operator of half_join.rs (half_join_internal_unsafe) over any arranged input, activated at any moments, against any yield decisions: what it sent and what it owes make up all answers; progress, capabilities, no panic; two of them make the join; the frontier functions of examples/delta_query2.rs are shown to suit their comparisons (and frontier e for a strict comparison not to). AltNeu: differentiate/integrate with the neu/alt split give the join for totally ordered times; refuted for lattices (concurrent changes are lost)."
  },
  {
   "property": "C38",
   "status": "proved",
   "theorems": [
    "c38_pack_any_calls",
    "c38_pack_holds_little",
    "c38_vec_settle",
    "c38_is_graded"
   ],
   "note": "pack (any closures that act on rows as documented) and VecChunk::settle, in any number of calls; is_graded. Chunks given must be non-empty, as the trait asks: an empty chunk is passed on (c38_empty_chunk)."
  },
  {
   "property": "C39",
   "status": "proved",
   "theorems": [
    "c39_merge",
    "c39_merge_chains",
    "c39_extract",
    "c39_advance",
    "c39_batch_merge",
    "c39_build",
    "c39_vec_merge",
    "c39_vec_extract",
    "c39_vec_advance",
    "c39_trace_accumulations",
    "c39_arrange_reads"
   ],
   "note": "For any chunk type that keeps the trait's contract (ChunkLaws), proved for VecChunk: merging, extracting, advancing in any calls, ChunkBatchMerger for any fuel, the builder; and the batches satisfy BatchLaws, so the trace and arrange theorems apply."
  },
  {
   "property": "C40",
   "status": "proved",
   "theorems": [
    "c40_cursor",
    "c40_forward",
    "c40_boundaries_do_not_show",
    "c40_vec_chunk",
    "c40_vec_batch",
    "c40_seek_backward_refuted"
   ],
   "note": "For every chunk type whose own cursor presents the chunk and whose bounds are its first and last key and value, and for VecChunk, which is one: after any legal navigation the batch cursor shows what is at that position of the concatenated updates, whatever the boundaries. Seeking a key is absolute: it starts over, so it also moves back (c40_seek_backward_refuted); restricted to forward seeks it agrees with every other cursor. The columnar chunk's cursor is not modelled."
  },
  {
   "property": "C41",
   "status": "proved",
   "theorems": [
    "c41_offset_list_lossless"
   ],
   "note": "All sequences of push and clear, with iteration."
  },
  {
   "property": "C42",
   "status": "partial",
   "theorems": [
    "c42_seek_val_skips_values_of_later_keys_refuted",
    "c42_seek_val_panics_at_exhausted_source_refuted",
    "c42_seek_val_when_shared_partial"
   ],
   "note": "Refuted in general: seek_val moves cursors of sources at other keys, whose values are then missed, and panics on exhausted sources. Proved where all sources hold the current key."
  },
  {
   "property": "C43",
   "status": "proved",
   "theorems": [
    "c43_value_history",
    "c43_buffer_accumulates",
    "c43_load",
    "c43_time_history"
   ],
   "note": "Value histories and time histories under every interleaving of steps and advances; loading from any list of updates."
  },
  {
   "property": "C44",
   "status": "proved",
   "theorems": [
    "c44_prefix_sum_at",
    "c44_prefix_sum",
    "c44_associative_only_refuted"
   ],
   "note": "The operators are taken as the functions on collections that C21, C23, C27, C29 and C30 establish; positions below 2^bits, and at least bits rounds of iteration. Finding: associativity alone is not enough (c44_associative_only_refuted)."
  },
  {
   "property": "C45",
   "status": "partial",
   "theorems": [
    "c45_slices_lossless",
    "c45_slices_clone_onto_refuted"
   ],
   "note": "Pushes, clears and indexing proved; clone_onto refuted: it panics when the destination has another length."
  },
  {
   "property": "C46",
   "status": "partial",
   "theorems": [
    "c46_distinct_total_refuted",
    "c46_distinct_total_partial"
   ],
   "note": "Refuted in general: a record whose accumulation returns to zero is not retracted (c46_distinct_total_refuted). Proved for every run whose differences lie in a set closed under addition that does not hold zero, for instance positive integers: each record present is produced with multiplicity exactly one at every closed time. Missing: records that leave."
  },
  {
   "property": "C47",
   "status": "proved",
   "theorems": [
    "c47_lookup",
    "c47_lookup_complete",
    "c47_lookup_progress",
    "c47_lookup_capabilities",
    "c47_values",
    "c47_quiet",
    "c47_agreed",
    "c47_extend",
    "c47_extend_sets",
    "c47_validate_ignores_multiplicity_refuted"
   ],
   "note": "lookup_map operator against any batch type; the extend composition over what the operators produce; that validate ignores multiplicities is recorded as a refutation"
  },
  {
   "property": "C48",
   "status": "proved",
   "theorems": [
    "c48_bfs",
    "c48_bfs_round"
   ],
   "note": "At the level of collections, for every number of rounds at least the number of edges; c48_bfs_round says what each earlier round holds. Distances are natural numbers (u32 in the code)."
  },
  {
   "property": "C49",
   "status": "proved",
   "theorems": [
    "c49_propagate",
    "c49_delays",
    "c49_round"
   ],
   "note": "For every delay function, with enough rounds for the last label; c49_round for each round."
  },
  {
   "property": "C50",
   "status": "proved",
   "theorems": [
    "c50_scc",
    "c50_scc_plain"
   ],
   "note": "For any numbers of inner and outer rounds at least the size of the graph (c50_scc); for strongly_connected and strongly_connected_at."
  },
  {
   "property": "C51",
   "status": "proved",
   "theorems": [
    "c51_bidijkstra"
   ],
   "note": "For all graphs and goals and enough rounds."
  },
  {
   "property": "C52",
   "status": "proved",
   "theorems": [
    "c52_sequence",
    "c52_every_node_refuted"
   ],
   "note": "For every logic and node order, given that each node's edges bring it values (the refutation shows what happens otherwise: such nodes vanish)."
  },
  {
   "property": "C53",
   "status": "proved",
   "theorems": [
    "c53_identifiers",
    "c53_stays",
    "c53_stops",
    "c53_no_collisions",
    "c53_every_hash_refuted"
   ],
   "note": "For every hash function into any ordered type; distinctness once the loop is at a fixed point, which is reached within a stated number of rounds when collisions end; c53_every_hash_refuted shows it need not be reached."
  },
  {
   "property": "C54",
   "status": "proved",
   "theorems": [
    "c54_proxy_tactic_joins",
    "c54_proxy_join_accumulates",
    "c54_a_backend_keeps_the_contract"
   ],
   "note": "For every backend that keeps the contract of Spec/ProxyJoinSpec (bridges show the collections, restricted to the hashes asked for; crossing gives what the matches stand for), the tactic satisfies the contract of the join operator, so every theorem of C21 holds with it. A backend with hash collisions is shown to keep the contract. The backend's state is the same at the start of each unit of work."
  },
  {
   "property": "C55",
   "status": "partial",
   "theorems": [
    "c55_discover_suffices",
    "c55_proxy_round_partial",
    "c55_proxy_reduce_linear_past_partial",
    "c55_proxy_reduce_never_fails",
    "c55_proxy_capabilities",
    "c55_backend_exists",
    "c55_proxy_round_refuted"
   ],
   "note": "Proved: for each key, the times found by discover_times suffice (at all times of the interval, and beyond it at times with a totally ordered past); a round of the tactic around it, with any backend that meets its contract and any hash, leaves the output right at all times of the interval, and beyond it at times with a totally ordered past and nothing kept before them; the operator with this tactic never fails, is right at all times done with whose past is totally ordered, and holds capabilities for work only; a backend exists. Missing: times with a past that is not totally ordered, across rounds; c55_proxy_round_refuted shows a round can leave those wrong."
  },
  {
   "property": "C56",
   "status": "proved",
   "theorems": [
    "c56_build",
    "c56_push",
    "c56_canonical",
    "c56_split",
    "c56_meld",
    "c56_chunks",
    "c56_settle",
    "c56_merge",
    "c56_extract",
    "c56_advance",
    "c56_batch_merge",
    "c56_trace_accumulations",
    "c56_cursor",
    "c56_batch_cursor",
    "c56_advance_default_refuted"
   ],
   "note": "Tries (push, read, consolidate, split, meld), the chunk operations (laws of C38/C39 instantiated: merge, extract, advance, settle, batches, traces), and the cursors of chunks and batches. The default of the differences is taken to be zero; refuted otherwise. Encoding of paged chunks is not modelled."
  },
  {
   "property": "C57",
   "status": "proved",
   "theorems": [
    "c57_made",
    "c57_negate",
    "c57_enter",
    "c57_leave",
    "c57_results_in",
    "c57_builder",
    "c57_chunker",
    "c57_chunker_sizes",
    "c57_distribute",
    "c57_records",
    "c57_records_in_general",
    "c57_join_function",
    "c57_leave_dynamic",
    "c57_to_chunks",
    "c57_records_lost_refuted",
    "c57_records_made_up_refuted",
    "c57_enter_refuted"
   ],
   "note": "Containers of columnar collections: operations, builder, exchange to any number of workers, chunker, their composition; record counts conserved under a stated condition, with refutations where it fails."
  },
  {
   "property": "C58",
   "status": "proved",
   "theorems": [
    "c58_half_join",
    "c58_half_join_complete",
    "c58_half_join_progress",
    "c58_half_join_progress_without_yields",
    "c58_half_join_capabilities",
    "c58_half_join_holds",
    "c58_two_half_joins",
    "c58_nat",
    "c58_pairs",
    "c58_half_join_stalls_refuted",
    "c58_partial_order_refuted"
   ],
   "note": "All runs, for every batch type with readable cursors, comparisons that follow the total order, and every yield behaviour: sent + answers to kept = answers to all; no panic; capabilities exactly those of what is kept; progress from states with nothing ready and for runs that never yield. The progress statement is false with yields in general (c58_half_join_stalls_refuted), and correctness needs the total order (c58_partial_order_refuted). How outputs are cut into containers is not modelled."
  },
  {
   "property": "C59",
   "status": "proved",
   "theorems": [
    "c59_optimize_means",
    "c59_optimize_scope_means",
    "c59_optimize_settles",
    "c59_fuse_delays_refuted",
    "c59_fuse_round_refuted"
   ],
   "note": "For tame programs; c59_fuse_delays_refuted and c59_fuse_round_refuted show that fusing a chain that delays and then looks at times changes the result (findings). Dropping a duplicate inspect changes what is printed, which is not modelled."
  },
  {
   "property": "C60",
   "status": "proved",
   "theorems": [
    "c60_exports_unique",
    "c60_as_of",
    "c60_no_look_ahead",
    "c60_linear"
   ],
   "note": "Programs in which no scalar term panics; the relation is that of quiescent dataflows, whose operators the other properties treat."
  },
  {
   "property": "C61",
   "status": "proved",
   "theorems": [
    "c61_lower_means",
    "c61_lower_refs",
    "c61_accepts_iff",
    "c61_order",
    "c61_compiled",
    "c61_source_unique",
    "c61_inner_export_refuted"
   ],
   "note": "Exact characterisation of what lowering accepts, given that names are defined once per scope (duplicates panic or shadow silently, see DESIGN 5) and exports stand at the root (others are forgotten: c61_inner_export_refuted). Meaning preserved in both directions; order independence; composition with optimize for programs without enter_at."
  },
  {
   "property": "C62",
   "status": "proved",
   "theorems": [
    "c62_clone_means",
    "c62_clone_into",
    "c62_sites",
    "c62_compiled",
    "c62_dangling_refuted"
   ],
   "note": "For every tree with good references whose nested scopes import from parents: no panic, same imports and names, same meaning in both directions; general splice into any scope; every place shown. Dangling references: c62_dangling_refuted. A clone's lifts of delayed places are not tame, so optimizing a clone is subject to the findings of C59."
  },
  {
   "property": "C63",
   "status": "proved",
   "theorems": [
    "c63_eval",
    "c63_hash",
    "c63_min",
    "c63_distinct",
    "c63_count",
    "c63_collect",
    "c63_collect_flatten",
    "c63_collect_positions"
   ],
   "note": "Terms: both directions against a big-step semantics. Reducers: at every time, for every key and value; collect then flatmap is the identity on nonnegative multiplicities. Integer overflow is not modelled."
  },
  {
   "property": "C64",
   "status": "proved",
   "theorems": [
    "c64_reads_live",
    "c64_installed",
    "c64_owned",
    "c64_no_panic",
    "c64_serves",
    "c64_drop",
    "c64_install",
    "c64_install_effect",
    "c64_install_frame",
    "c64_feed",
    "c64_tick",
    "c64_peek_frame",
    "c64_peek",
    "c64_clock",
    "c64_clock_once",
    "c64_generated",
    "c64_canonical",
    "c64_workers",
    "c64_owned_refuted",
    "c64_named_refuted",
    "c64_no_panic_refuted"
   ],
   "note": "Exact conditions and effects of install, feed, tick, drop and peek in every reached state, lifetimes, clock, generated sources, agreement of workers. What fails without the stated conditions is refuted: c64_owned_refuted, c64_named_refuted, c64_no_panic_refuted. Probes and waiting are left out."
  },
  {
   "property": "C65",
   "status": "proved",
   "theorems": [
    "c65_accepts",
    "c65_means",
    "c65_unambiguous",
    "c65_term",
    "c65_whole_text_refuted",
    "c65_gap_refuted"
   ],
   "note": "Exact acceptance, meaning of every reading, and unambiguity of meaning. The condition on defaults that stand in for omitted tags is necessary: c65_gap_refuted shows that the code reads the wrong value without it. Tokens are given; the tokenizer is not modelled."
  },
  {
   "property": "C66",
   "status": "proved",
   "theorems": [
    "c66_expression",
    "c66_statements",
    "c66_program",
    "c66_unambiguous",
    "c66_begins",
    "c66_stray_brace_refuted",
    "c66_field_refuted"
   ],
   "note": "On tokens, for all programs. c66_stray_brace_refuted: a stray closing brace at the top drops the rest of the text. c66_field_refuted: a field that begins with a bare row and goes on is refused."
  },
  {
   "property": "C67",
   "status": "proved",
   "theorems": [
    "c67_tokens",
    "c67_accepted",
    "c67_unambiguous",
    "c67_lines",
    "c67_text"
   ],
   "note": "On bytes, for all texts."
  },
  {
   "property": "C68",
   "status": "proved",
   "theorems": [
    "c68_terms",
    "c68_expression",
    "c68_program",
    "c68_unambiguous",
    "c68_pipes",
    "c68_stray_brace_refuted"
   ],
   "note": "On tokens; the tokenizer of this syntax is not modelled. A stray closing brace ends the program (c68_stray_brace_refuted)."
  }
 ]
}