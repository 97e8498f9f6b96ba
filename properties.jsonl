{"id": "C01", "title": "Timestamp join and meet are least upper and greatest lower bounds", "statement": "For every timestamp type the library gives a Lattice implementation (integers, (), Product, lexicographic pairs, PointStamp vectors, AltNeu), `less_equal` is a partial order, `a.join(b)` is the least time greater or equal to both `a` and `b`, and `a.meet(b)` is the greatest time less or equal to both.", "quantifier": "all times of each type, all nestings of the type constructors", "why_tests_cant": "The time types are infinite and nest arbitrarily; a unit test checks a few triples, and every operator's correctness relies on the laws for all of them.", "anchors": ["differential-dataflow/src/lattice.rs: Lattice for Product, (T1,T2), implement_lattice!", "differential-dataflow/src/dynamic/pointstamp.rs: Lattice for PointStamp", "dogsdogsdogs/src/altneu.rs: Lattice for AltNeu"]}
{"id": "C02", "title": "Advancing a time by a frontier is invisible at or beyond the frontier", "statement": "For every non-empty frontier F and time t, the time produced by `t.advance_by(F)` compares as less or equal to exactly the same times u as t does, for every u that is greater or equal to some element of F. With an empty frontier t is left unchanged.", "quantifier": "all lattices, all times, all frontiers (any number of elements), all query times", "why_tests_cant": "Quantifies over every frontier and every later query time; finite tests can only sample.", "anchors": ["differential-dataflow/src/lattice.rs: Lattice::advance_by"]}
{"id": "C03", "title": "Advancing by a frontier yields canonical representatives", "statement": "Two times have the same `advance_by(F)` result if (and only if) no time at or beyond F can tell them apart, so updates that can no longer be distinguished are consolidated together. Advancing is idempotent and monotone.", "quantifier": "all lattices, all pairs of times, all non-empty frontiers", "why_tests_cant": "The 'only if' half ranges over all observers beyond F.", "anchors": ["differential-dataflow/src/lattice.rs: Lattice::advance_by (documented formal guarantees)"]}
{"id": "C04", "title": "Frontier join and meet describe intersections and unions of futures", "statement": "`antichain_join(A,B)` is an antichain whose future (times at or beyond some element) is exactly the intersection of the futures of A and B; `antichain_meet(A,B)` is an antichain whose future is exactly the union. `antichain_join_into` leaves the same frontier, whatever the previous content of the destination.", "quantifier": "all antichains (including empty ones), all times", "why_tests_cant": "Frontiers are arbitrary finite antichains of arbitrary lattices.", "anchors": ["differential-dataflow/src/lattice.rs: antichain_join, antichain_join_into, antichain_meet, Lattice for Antichain"]}
{"id": "C05", "title": "Difference types obey the algebra the operators assume", "statement": "For every difference type: `plus_equals` is associative and commutative; an element reporting `is_zero` is an identity; `zero()` reports `is_zero`; `negate` gives an inverse; `multiply` distributes over addition on both sides and preserves zero. This holds for integers (with wrap-around where the type wraps), Present (no zero, no negation), tuples, and vectors.", "quantifier": "all difference values", "why_tests_cant": "Infinite (or 2^64-sized) domains and arbitrary tuple nesting.", "anchors": ["differential-dataflow/src/difference.rs: Semigroup, Monoid, Abelian, Multiply"]}
{"id": "C06", "title": "Consolidation preserves sums and produces canonical form", "statement": "After `consolidate` / `consolidate_updates` a vector is sorted by its data (and time), holds at most one entry per distinct data (and time), holds no zero difference, and the total difference for every data (and time) is unchanged. The result depends only on these totals, not on the order of the input or the sort used, and entries before `offset` are untouched.", "quantifier": "all vectors, all offsets, all difference monoids", "why_tests_cant": "All permutations and multiplicities of input; the in-place loop has length-dependent fast paths.", "anchors": ["differential-dataflow/src/consolidation.rs: consolidate, consolidate_from, consolidate_slice, consolidate_slice_slow, consolidate_updates, consolidate_updates_slice"]}
{"id": "C07", "title": "Consolidating container builders neither lose nor invent updates", "statement": "For every interleaving of pushes, `extract` and `finish` calls on the consolidating builder or on the arrangement chunker, the containers handed out together with what is still buffered carry, for each (data,time), exactly the total difference pushed; after `finish` returns nothing, nothing is left buffered; every container handed out by the chunker is consolidated.", "quantifier": "all push/extract/finish histories, all buffer capacities", "why_tests_cant": "The buffer is flushed at capacity-dependent points; only an argument over all histories rules out a lost remainder.", "anchors": ["differential-dataflow/src/consolidation.rs: ConsolidatingContainerBuilder", "differential-dataflow/src/trace/implementations/chunker.rs: ContainerChunker"]}
{"id": "C08", "title": "The merge batcher partitions updates by frontier", "statement": "For every sequence of pushed containers and `seal(upper)` calls with non-decreasing uppers, each sealed batch holds exactly the consolidated updates that were pushed earlier, not yet sealed, and are not at or beyond `upper`; the batch description is [previous upper, upper); everything else is retained; and the frontier reported after sealing is exactly the set of minimal times retained.", "quantifier": "all histories of pushes and seals", "why_tests_cant": "The internal chain structure (geometric merging) depends on the entire history.", "anchors": ["differential-dataflow/src/trace/implementations/merge_batcher.rs: MergeBatcher::push_container, seal, frontier, insert_chain, merge_by, extract"]}
{"id": "C09", "title": "Merging two sorted chains gives their consolidated union", "statement": "Merging two chains of chunks, each sorted and consolidated by (data,time), gives a sorted, consolidated chain with the summed differences, whatever the chunk boundaries; splitting a chain by a frontier puts each update on exactly one side and reports the exact frontier of the kept side.", "quantifier": "all chains, all chunk boundaries, all frontiers", "why_tests_cant": "Chunk boundaries interact with the refill logic in unboundedly many ways.", "anchors": ["differential-dataflow/src/trace/implementations/merge_batcher.rs: VecMerger::merge, extract"]}
{"id": "C10", "title": "A built batch reads back exactly as written", "statement": "Pushing a sorted, consolidated sequence of ((key,val),time,diff) through a batch builder and reading the batch back through its cursor yields exactly that sequence (keys ascending, values ascending within a key, all (time,diff) pairs), for both key-val and key-only batches, including the space-saving representation of repeated single updates.", "quantifier": "all sorted consolidated update sequences, all chunkings of it into builder inputs", "why_tests_cant": "The singleton-suppression encoding depends on adjacency of equal updates across keys and values.", "anchors": ["differential-dataflow/src/trace/implementations/ord_neu.rs: OrdValBuilder, OrdKeyBuilder, Upds, UpdsBuilder, Vals, OrdValCursor, OrdKeyCursor"]}
{"id": "C11", "title": "Merging two batches equals compacting their union, for any amount of work per call", "statement": "Merging two adjacent batches with a compaction frontier gives a batch over the combined interval, sorted and consolidated, with the same accumulated difference as the union of the two batches for every (key,val) at every time at or beyond the frontier; all its times are advanced to the frontier; and the result is independent of how the work is sliced into fuelled calls. A call that leaves fuel unspent has finished the merge.", "quantifier": "all pairs of batches, all compaction frontiers, all sequences of fuel amounts", "why_tests_cant": "Every suspension point of the incremental merge is a distinct state.", "anchors": ["differential-dataflow/src/trace/implementations/ord_neu.rs: OrdValMerger, OrdKeyMerger (work, merge_key, merge_vals, copy_key, stash_updates_for_val, done)"]}
{"id": "C12", "title": "Galloping seeks land on the first element not satisfying the predicate", "statement": "`advance(start,end,pred)` on a batch container, with pred true on a prefix of [start,end), returns exactly the number of elements of that prefix; consequently `seek_key`/`seek_val` position a cursor at the first key/value greater or equal to the target, and never move it backwards.", "quantifier": "all container contents, ranges and monotone predicates", "why_tests_cant": "Off-by-one errors in exponential/binary search only show at particular lengths.", "anchors": ["differential-dataflow/src/trace/implementations/mod.rs: BatchContainer::advance", "differential-dataflow/src/trace/implementations/ord_neu.rs: seek_key, seek_val", "differential-dataflow/src/trace/chunk/vec.rs: gallop"]}
{"id": "C13", "title": "A merged cursor presents the union of its cursors", "statement": "A cursor list over any number of sorted sources enumerates exactly the distinct keys of the sources in increasing order, under each key the distinct values in increasing order, and under each value all (time,diff) pairs of all sources; stepping, seeking keys and rewinding keep this true.", "quantifier": "all collections of sources, all navigation sequences using step/seek_key/rewind", "why_tests_cant": "Arbitrary number of sources and arbitrary navigation histories.", "anchors": ["differential-dataflow/src/trace/cursor/cursor_list.rs: CursorList", "differential-dataflow/src/trace/cursor/mod.rs: cursor_list, to_vec, populate_key"]}
{"id": "C14", "title": "A trace accumulates exactly what was inserted, beyond its compaction frontier", "statement": "After any sequence of batch insertions, maintenance effort, compaction-frontier changes and completed or incomplete merges, the accumulated difference of every (key,val) at every time at or beyond the logical compaction frontier equals that of the batches inserted so far.", "quantifier": "all operation sequences, all efforts, all compaction frontiers", "why_tests_cant": "Merges are performed incrementally and interleave arbitrarily with insertion and compaction changes.", "anchors": ["differential-dataflow/src/trace/implementations/spine_fueled.rs: Spine::insert, exert, apply_fuel, introduce_batch, roll_up, tidy_layers, consider_merges"]}
{"id": "C15", "title": "A trace's batches always tile its history contiguously", "statement": "At every moment the batches of a trace, oldest first, have descriptions whose bounds chain from the minimum frontier to the trace's upper: each batch's lower is its predecessor's upper, no interval is lost or duplicated by merging, and the trace's upper is the upper of the last inserted batch.", "quantifier": "all operation sequences", "why_tests_cant": "An invariant over all reachable states of the incremental merge tree.", "anchors": ["differential-dataflow/src/trace/implementations/spine_fueled.rs: map_batches, insert, MergeState", "differential-dataflow/src/trace/mod.rs: TraceReader::read_upper, advance_upper"]}
{"id": "C16", "title": "Reading a trace through an admissible upper bound returns exactly the updates before it", "statement": "If the requested upper is the upper of some batch inserted (or the minimum), and is at or beyond the physical compaction frontier that has been set, then `batches_through(upper)` returns batches which contain exactly the inserted history up to that upper and nothing after it.", "quantifier": "all operation sequences and all requested uppers admissible for the physical compaction frontier", "why_tests_cant": "Physical merging races with readers; only an invariant over all interleavings shows no batch straddles the requested bound.", "anchors": ["differential-dataflow/src/trace/implementations/spine_fueled.rs: batches_through, set_physical_compaction, consider_merges"]}
{"id": "C17", "title": "Trace maintenance never panics and keeps the merge tree geometric", "statement": "No sequence of insertions and maintenance calls drives the trace into one of its panics (inserting into a full layer, merging an unfinished or absent layer); after each insertion every batch at layer i has at most 2^i updates, so the number of layers is logarithmic in the number of updates.", "quantifier": "all operation sequences, all batch sizes, all effort settings of at least one", "why_tests_cant": "The argument is amortised: fuel supplied to in-progress merges must suffice for every history.", "anchors": ["differential-dataflow/src/trace/implementations/spine_fueled.rs: introduce_batch, insert_at, complete_at, roll_up, tidy_layers, apply_fuel"]}
{"id": "C18", "title": "Shared trace handles are protected by their own compaction frontiers", "statement": "For every history of cloning, dropping and advancing handles of one trace, the compaction frontiers applied to the shared trace never pass the frontier held by any live handle, a handle's own frontier only advances, and when the last handle is dropped the shared trace may be compacted without limit.", "quantifier": "all interleavings of clone / drop / set_compaction on any number of handles", "why_tests_cant": "Reference-counted frontiers over all histories.", "anchors": ["differential-dataflow/src/operators/arrange/agent.rs: TraceAgent (set_logical_compaction, set_physical_compaction, Clone, Drop), TraceBox"]}
{"id": "C19", "title": "A trace writer produces a gap-free history and every importer sees all of it once", "statement": "For every sequence of insert/seal calls accepted by the writer and every moment at which a listener is attached, the listener receives the history up to then followed by each later batch exactly once, in order, with contiguous descriptions, and finally the empty frontier when the writer is dropped; the trace holds the same batches.", "quantifier": "all writer histories, all attachment points, any number of listeners", "why_tests_cant": "The attach point may fall between any two writer actions.", "anchors": ["differential-dataflow/src/operators/arrange/writer.rs: TraceWriter", "differential-dataflow/src/operators/arrange/agent.rs: TraceAgent::new_listener, import_core"]}
{"id": "C20", "title": "Arranging a collection yields batches that partition its updates", "statement": "For every arrival order of updates and frontier advances (at times allowed by the input capabilities), the arrange operator emits contiguous non-empty-interval batches from the minimum frontier to the input frontier, whose contents are exactly the consolidated updates received at times before the frontier; each batch is sent at a capability it is entitled to, and the operator never fails to find a capability for retained updates.", "quantifier": "all input schedules consistent with timely's progress guarantees", "why_tests_cant": "The operator's capability set and the batcher's retained frontier must stay in lock-step in every execution.", "anchors": ["differential-dataflow/src/operators/arrange/arrangement.rs: arrange_core"]}
{"id": "C21", "title": "Join output is the product of its inputs at every time, under every schedule", "statement": "Once both input frontiers are beyond a time t, the accumulated output of join at t is, for each pair of records with equal key, the product of the accumulated inputs at t; every pair of input updates is matched exactly once no matter how batches of the two inputs are interleaved, how the work is sliced, or how the two traces are compacted in between.", "quantifier": "all arrival interleavings, all fuel slicings, all permitted compactions, all pre-loaded traces", "why_tests_cant": "The acknowledgement protocol between the two inputs is a concurrent protocol over arbitrary histories.", "anchors": ["differential-dataflow/src/operators/join.rs: join_with_tactic, CursorTactic, DeferredIter"]}
{"id": "C22", "title": "Per-key join by replay equals the cross product", "statement": "Joining two histories of one key by replaying them in time order with progressive compaction produces, for each pair of values and each time, the same accumulated difference as multiplying every update of one with every update of the other at the join of their times, for both the small and the large code path.", "quantifier": "all histories, all lattices, all bilinear multiplications", "why_tests_cant": "The two code paths switch on size, and replay order interacts with compaction.", "anchors": ["differential-dataflow/src/operators/join.rs: JoinThinker::think", "differential-dataflow/src/operators/common.rs: bilinear_wave", "differential-dataflow/src/operators/int_proxy/join.rs: join_key"]}
{"id": "C23", "title": "Reduce output is the reduction of the accumulated input at every time, under every schedule", "statement": "For every history of input batches and frontier advances and every permitted compaction of the stored input and output, once the frontier has passed a time t the accumulated output at t for each key equals the user function applied to the accumulated (non-zero) input at t for that key (and is empty when the input is empty).", "quantifier": "all input histories over all lattices, all schedules, all compactions, all user functions", "why_tests_cant": "Partially ordered times make changes appear at joins of arbitrary sets of times; finite tests cannot enumerate them.", "anchors": ["differential-dataflow/src/operators/reduce.rs: reduce_with_tactic, CursorTactic::retire, HistoryReplayer::compute", "differential-dataflow/src/operators/common.rs: discover_times", "differential-dataflow/src/operators/int_proxy/reduce.rs"]}
{"id": "C24", "title": "Reduce revisits every time at which its output can change", "statement": "When a key is processed over an interval, every time in the interval at which the accumulated input can differ in a way not already reflected in the output is a time at which the user function is re-evaluated, and every such time beyond the interval is kept as pending work covered by a retained capability.", "quantifier": "all sets of new, pending, stored input and stored output times", "why_tests_cant": "A closure property over arbitrary finite subsets of a lattice.", "anchors": ["differential-dataflow/src/operators/common.rs: discover_times", "differential-dataflow/src/operators/reduce.rs: HistoryReplayer::compute"]}
{"id": "C25", "title": "Reduce's output batches tile the processed interval and honour capabilities", "statement": "In every round the batches produced by reduce have contiguous descriptions from the previous upper to the new upper, each update is in the batch whose interval contains its time, each batch is sent with a capability less or equal to all its updates, and the capabilities retained afterwards cover all pending times.", "quantifier": "all held capability sets, all updates, all bounds", "why_tests_cant": "Any number of incomparable capabilities in any order.", "anchors": ["differential-dataflow/src/operators/reduce.rs: CursorTactic::retire, reduce_with_tactic", "differential-dataflow/src/operators/common.rs: tile_descriptions"]}
{"id": "C26", "title": "count_total reports the exact multiplicity of each record at every time", "statement": "For totally ordered times and every sequence of batches, the accumulated output of count_total at any completed time t has exactly one record (key,c) with multiplicity one for each key whose accumulated input c at t is non-zero, and nothing else.", "quantifier": "all batch sequences, all batch boundaries, all totally ordered times", "why_tests_cant": "Batch boundaries and stored history split the running count arbitrarily.", "anchors": ["differential-dataflow/src/operators/count.rs: count_total_core"]}
{"id": "C27", "title": "threshold_total reflects the current multiplicity", "statement": "For totally ordered times, the accumulated output of threshold_total at any completed time t is, for each key, the threshold function of the accumulated input at t (for functions that are zero when the record is absent); the same holds of threshold_semigroup for functions that report the changes of such a function.", "quantifier": "all batch sequences and threshold functions", "why_tests_cant": "Requires relating the incremental differences to the accumulated value over the whole history.", "anchors": ["differential-dataflow/src/operators/threshold.rs: threshold_semigroup, threshold_total"]}
{"id": "C28", "title": "arrange_from_upsert maintains a map", "statement": "For every sequence of upserts (key, optional value, time) over totally ordered times, the accumulated arrangement at every completed time t holds for each key exactly the value of the latest upsert at or before t (the greatest value among ties at the same time), with multiplicity one, and nothing if that upsert is a deletion or there is none.", "quantifier": "all upsert sequences and batchings", "why_tests_cant": "History-dependent retractions; each batching reads back the previous state from the trace.", "anchors": ["differential-dataflow/src/operators/arrange/upsert.rs: arrange_from_upsert"]}
{"id": "C29", "title": "Iteration computes the repeated application of its body", "statement": "With a loop variable fed back with a delay of one iteration, the accumulated value of the variable at iteration i is the i-fold application of the loop body to the initial collection, at each outer time; the value leaving the loop is the fixed point when iteration stabilises; `Variable::new_from` gives source at iteration zero and the assigned result afterwards.", "quantifier": "all loop bodies that are functions of the accumulated collection, all inputs, all iterations", "why_tests_cant": "Unbounded iteration count and all bodies.", "anchors": ["differential-dataflow/src/operators/iterate.rs: iterate, Variable::new, new_from, set"]}
{"id": "C30", "title": "Linear operators act record by record on accumulated collections", "statement": "map, filter, flat_map, explode, concat, negate (and antijoin/assert_eq built from them) transform updates so that the accumulated output at every time is the stated function of the accumulated input: the image multiset, the restriction, the weighted image, the sum, the negation, the difference.", "quantifier": "all collections, all functions, all times", "why_tests_cant": "All inputs and user functions.", "anchors": ["differential-dataflow/src/collection.rs: map, filter, flat_map, explode, concat, negate, antijoin, join_function"]}
{"id": "C31", "title": "Moving a collection between scopes preserves its meaning", "statement": "`enter` makes the inner collection at (outer t, any inner time) equal to the outer collection at t; `leave` gives at outer t the sum over all inner times; enter followed by leave is the identity; delay with a monotone, extensive function shows at time t the updates whose delayed time is at or before t; feedback with a step shows at time t what the collection was at times whose step is at or before t.", "quantifier": "all collections, all inner/outer times, all summaries", "why_tests_cant": "All inputs and all timestamp refinements.", "anchors": ["differential-dataflow/src/collection.rs: enter, leave, results_in, delay, enter_at", "differential-dataflow/src/trace/wrappers/enter.rs", "differential-dataflow/src/trace/wrappers/enter_at.rs"]}
{"id": "C32", "title": "Importing a trace between frontiers shows exactly the window's contents", "statement": "A trace wrapped with `since` and `until` shows every time advanced to since (hence at or beyond it when since has one element), no time at or beyond until, and at every time in the window (at or beyond since, not at or beyond until) the same accumulated contents as the original trace, however the original has been compacted within its permission.", "quantifier": "all traces, all since/until frontiers, all window times", "why_tests_cant": "All frontiers and histories.", "anchors": ["differential-dataflow/src/trace/wrappers/frontier.rs: TraceFrontier, BatchFrontier, map_times", "differential-dataflow/src/operators/arrange/agent.rs: import_frontier_core"]}
{"id": "C33", "title": "Input sessions deliver every update once, at a legal time, in time order", "statement": "For every sequence of insert/update/update_at/advance_to/flush calls accepted by an input session, every update is sent to the dataflow exactly once with its stated time, never at a time the dataflow has been told is closed; after flush nothing is buffered and the dataflow's input time equals the session's time.", "quantifier": "all call sequences, all buffer capacities", "why_tests_cant": "Buffer flushes happen at capacity-dependent points between time advances.", "anchors": ["differential-dataflow/src/input.rs: InputSession"]}
{"id": "C34", "title": "Capture and replay reproduce the collection under duplication and reordering", "statement": "If a stream of captured messages contains, for each time covered by progress statements, the stated number of distinct updates, then for every duplication and reordering of the messages, each update is delivered exactly once, in a message not earlier than the reported frontier allows, and once all messages have been delivered all updates have been delivered and the frontier is that of the progress statements.", "quantifier": "all permutations and duplications of the message stream", "why_tests_cant": "Unboundedly many interleavings of two multi-copy streams.", "anchors": ["differential-dataflow/src/capture.rs: Iter, ProgressWriter / source / sink, Message, Progress"]}
{"id": "C35", "title": "PointStamp times form a lattice regardless of their length", "statement": "PointStamp values are equal iff they agree coordinate by coordinate with missing coordinates read as the minimum; less_equal, join and meet act coordinate-wise under that reading; the minimum is least; comparisons against slices agree with the coordinate-wise reading.", "quantifier": "all vectors of any lengths", "why_tests_cant": "Vectors of different lengths and trailing minima are easy to get subtly wrong.", "anchors": ["differential-dataflow/src/dynamic/pointstamp.rs: PointStamp (new, PartialOrder, Lattice, PartialEq<[T]>)"]}
{"id": "C36", "title": "PointStamp summaries compose and are monotone", "statement": "Applying a summary and then another equals applying their composition; applying a summary preserves the order on times; a summary less or equal to another produces times less or equal; leave_dynamic/feedback summaries truncate or increment exactly the stated coordinate.", "quantifier": "all summaries (retain / actions) and all times", "why_tests_cant": "Progress tracking relies on this for all paths in all dataflow graphs.", "anchors": ["differential-dataflow/src/dynamic/pointstamp.rs: PointStampSummary results_in, followed_by, less_equal", "differential-dataflow/src/dynamic/mod.rs: feedback_summary, leave_dynamic"]}
{"id": "C37", "title": "Delta-query half joins together produce each output exactly once", "statement": "A half join answers every proposal delivered to it exactly once, with each arranged update of its key that the comparison puts before the proposal's initial time, whatever the schedule, the compaction of the trace that its frontier function allows, and the points where it yields; it never panics, keeps a proposal back only while the arranged input may still change before it, and sends only at capabilities it holds. Two half joins over the same pair of inputs, one comparing strictly and the other weakly by the same total order, together produce exactly the updates of the full join. With AltNeu times, `neu` and `alt` make the same split for times in a total order, so the delta queries of differentiated inputs integrate to the join; for partially ordered times they do not.", "quantifier": "all input updates, times, schedules and yield points", "why_tests_cant": "Ties and yields over all histories.", "anchors": ["dogsdogsdogs/src/altneu.rs", "dogsdogsdogs/src/operators/half_join.rs"]}
{"id": "C38", "title": "Chunk packing yields maximally packed chunks with the same contents", "statement": "Settling any sequence of chunks in any number of resumable calls yields the same updates in the same order, in chunks no larger than the target size and such that adjacent chunks together exceed the target.", "quantifier": "all chunk size sequences, all call slicings", "why_tests_cant": "All size patterns.", "anchors": ["differential-dataflow/src/trace/chunk/mod.rs: pack, pack_absorb, is_graded, settle_all"]}
{"id": "C39", "title": "Chunked batches merge, extract and advance like flat update lists", "statement": "Merging chunk sequences gives the consolidated union in order; extracting partitions by the frontier and reports the kept frontier exactly; advancing consolidates each (key,val) group at the advanced times, independent of how the input is cut into chunks and calls.", "quantifier": "all chunk sequences, all cut points, all frontiers", "why_tests_cant": "Chunk boundaries may split any group at any place.", "anchors": ["differential-dataflow/src/trace/chunk/vec.rs: VecChunk::merge, extract, advance, settle", "differential-dataflow/src/trace/chunk/mod.rs: ChunkBatchMerger, ChunkMerger, merge_chains"]}
{"id": "C40", "title": "A chunked batch's cursor ignores chunk boundaries", "statement": "Navigating a batch made of chunks visits exactly the keys, values and updates of the concatenated updates, in order, for every placement of the chunk boundaries, including groups spanning several chunks.", "quantifier": "all chunkings and navigation sequences", "why_tests_cant": "Every boundary placement relative to key and value groups.", "anchors": ["differential-dataflow/src/trace/chunk/mod.rs: ChunkBatchCursor"]}
{"id": "C41", "title": "Offset lists are lossless compressed lists of offsets", "statement": "Pushing any sequence of offsets to an OffsetList and indexing it returns the pushed sequence, whatever mixture of leading zeros, 32-bit and 64-bit values results; its length is the number pushed.", "quantifier": "all sequences of offsets", "why_tests_cant": "Representation switches depend on the entire pushed prefix.", "anchors": ["differential-dataflow/src/trace/implementations/mod.rs: OffsetList"]}
{"id": "C42", "title": "Seeking a value in a merged cursor", "statement": "After seek_val on a merged cursor over the current key, the cursor is at the first value of that key greater or equal to the target among all sources, and later navigation to other keys still shows all of their values.", "quantifier": "all sources, all positions", "why_tests_cant": "Interaction of the seek with sources currently at other keys.", "anchors": ["differential-dataflow/src/trace/cursor/cursor_list.rs: CursorList::seek_val"]}
{"id": "C43", "title": "Replay histories report correct meets and accumulations", "statement": "Replaying a value history in time order, the reported meet is the greatest lower bound of all updates not yet replayed, the buffer holds the updates replayed so far (possibly advanced by frontiers the caller gave), and after all steps the buffer accumulates to the entire history.", "quantifier": "all histories, all interleavings of step and advance_buffer_by", "why_tests_cant": "All histories and interleavings.", "anchors": ["differential-dataflow/src/operators/mod.rs: ValueHistory, HistoryReplay, EditList", "differential-dataflow/src/operators/common.rs: TimeHistory"]}
{"id": "C44", "title": "Prefix sums combine all earlier positions in order", "statement": "prefix_sum_at produces for each queried location the combination, in position order, of zero and all values at strictly smaller positions of the same key, for an associative combine function with zero as right identity (combine(a, zero) = a) and at most one value per position.", "quantifier": "all position sets, query sets and associative functions", "why_tests_cant": "All positions up to 2^64 and all data sets; doubling structure depends on the binary expansion.", "anchors": ["differential-dataflow/src/algorithms/prefix_sum.rs: aggregate, broadcast, prefix_sum_at"]}
{"id": "C45", "title": "Slice containers are lossless lists of slices", "statement": "Pushing any sequence of slices to a SliceContainer and indexing it returns the pushed slices; its length is the number pushed since the last clear; copying a stored slice onto an owned value of any length gives that slice.", "quantifier": "all sequences of pushes and clears, all slices", "why_tests_cant": "All slice lengths, including empty slices and reuse after clear.", "anchors": ["differential-dataflow/src/trace/implementations/mod.rs: SliceContainer"]}
{"id": "C46", "title": "distinct_total holds each present record once", "statement": "For totally ordered times, distinct_total has multiplicity exactly one for records with non-zero accumulated input and zero for all others, at every completed time.", "quantifier": "all batch sequences", "why_tests_cant": "Requires histories in which a record leaves and comes back, in every batching and compaction.", "anchors": ["differential-dataflow/src/operators/threshold.rs: distinct_total_core"]}
{"id": "C47", "title": "Prefixes looked up in an arrangement are answered once, and extended by what all relations have", "statement": "lookup_map answers each prefix exactly once, at its own time, for each value its key has then, with the multiplicity it has then, whatever the order of activations, merging and compaction; it keeps a prefix back only while the arrangement may still change at its time. Extending prefixes by several indexed relations yields, for each prefix, exactly the values present in all relations, proposed by a relation with fewest values; over sets this is the join of the prefixes with all relations.", "quantifier": "all prefixes, relations, batch sequences, schedules, compactions and key selectors", "why_tests_cant": "Depends on the interleaving of arrangement progress, stashed prefixes, compaction, and on the data-dependent choice of the proposing relation.", "anchors": ["dogsdogsdogs/src/operators/lookup_map.rs: lookup_map", "dogsdogsdogs/src/operators/{count,propose,validate}.rs", "dogsdogsdogs/src/lib.rs: ProposeExtensionMethod::extend, CollectionIndex, CollectionExtender"]}
{"id": "C48", "title": "Breadth-first distances", "statement": "bfs yields for every node reachable from a root exactly one record, with multiplicity one, holding the least number of edges on any path from a root, and nothing for other nodes, for every multiset of edges and roots.", "quantifier": "all edge and root collections with non-negative counts, all graphs including cyclic ones", "why_tests_cant": "Requires all graphs; cycles make the number of rounds data-dependent.", "anchors": ["differential-dataflow/src/algorithms/graphs/bfs.rs: bfs, bfs_arranged"]}
{"id": "C49", "title": "Label propagation gives each node the least label that reaches it", "statement": "propagate yields for every node reachable from a labelled node exactly one record with the least label of all nodes that reach it, and nothing for other nodes; the delays assigned to labels (propagate_at, propagate_core's logic) affect only when they are introduced, never the result.", "quantifier": "all edge and label collections with non-negative counts, all delay functions", "why_tests_cant": "All graphs and all delay assignments.", "anchors": ["differential-dataflow/src/algorithms/graphs/propagate.rs: propagate, propagate_at, propagate_core"]}
{"id": "C50", "title": "Strongly connected components keep exactly the edges inside a component", "statement": "strongly_connected yields exactly the edges whose two ends reach each other, with their multiplicities, and no others, whatever the delays of labels.", "quantifier": "all graphs, all node types, all delay functions", "why_tests_cant": "Nested fixed points over all graphs.", "anchors": ["differential-dataflow/src/algorithms/graphs/scc.rs: strongly_connected, strongly_connected_at, trim_edges"]}
{"id": "C51", "title": "Bidirectional search finds shortest distances", "statement": "bidijkstra yields for each goal pair that is connected exactly one record holding the length of a shortest path from its source to its target, and nothing for pairs not connected.", "quantifier": "all graphs and goal sets", "why_tests_cant": "The meeting point of the two searches depends on the graph; all path lengths and parities.", "anchors": ["differential-dataflow/src/algorithms/graphs/bijkstra.rs: bidijkstra, bidijkstra_arranged"]}
{"id": "C52", "title": "Sequenced node updates see the new values of earlier and old values of later neighbors", "statement": "sequence yields the values that result from visiting the nodes in order, each computing its new value from the new values of smaller neighbors and the previous values of larger neighbors.", "quantifier": "all node orders, states, edge collections and update logics", "why_tests_cant": "Dependencies form chains of unbounded length through the node order.", "anchors": ["differential-dataflow/src/algorithms/graphs/sequential.rs: sequence"]}
{"id": "C53", "title": "Identifiers are distinct", "statement": "identifiers gives each distinct record one identifier, keeping its multiplicity, and once the loop has stopped changing no two records have the same identifier, for every hash function; it stops when hashes stop colliding from some round on.", "quantifier": "all collections and hash functions, including ones that collide over several rounds", "why_tests_cant": "Collisions of 64-bit hashes do not occur in tests; chains of collisions over rounds must be considered.", "anchors": ["differential-dataflow/src/algorithms/identifiers.rs: Identifiers::identifiers, identifiers_core"]}
{"id": "C54", "title": "Joining through hashes and identifiers is a join", "statement": "A join computed by ProxyJoinTactic over any backend that presents the batches' updates under key hashes and datum identifiers, and crosses matched identifiers by comparing the real keys, produces exactly the join of the two inputs, in whatever chunks, also when different keys have the same hash, and never at times before the fresh input.", "quantifier": "all backends keeping the contract, batches, hash functions, chunk lengths, histories of any length, and either input being fresh", "why_tests_cant": "Hash collisions do not occur in tests; the history-driven path, chunk boundaries and restriction to the fresh input's keys combine in unboundedly many ways.", "anchors": ["differential-dataflow/src/operators/int_proxy/join.rs: ProxyJoinTactic, ProxyJoinBackend, join_prep, join_key", "differential-dataflow/src/operators/int_proxy/mod.rs: ProxyBridge"]}
{"id": "C55", "title": "Reducing through hashes and identifiers is a reduction", "statement": "ProxyReduceTactic, over any backend that presents a key hash's input and output under identifiers and corrects an output to the reduction of an input, finds every time at which an output may have to change: after each round the accumulated output of every key is the reduction of its accumulated input at every time of the round's interval, also when keys collide, and every time beyond the interval at which it may have to change later is kept, with a capability at or before it.", "quantifier": "all backends keeping the contract, histories, partially ordered times, hash functions, window sizes and intervals", "why_tests_cant": "Hash collisions do not occur in tests, and the times at which the output changes are joins of unboundedly many incomparable times; what may be forgotten depends on all of them.", "anchors": ["differential-dataflow/src/operators/int_proxy/reduce.rs: ProxyReduceTactic, ProxyReduceBackend", "differential-dataflow/src/operators/common.rs: discover_times, tile_descriptions"]}
{"id": "C56", "title": "Columnar tries and chunks are lists of updates", "statement": "Updates pushed to a columnar trie and consolidated are read back consolidated; splitting and joining tries, and merging, extracting, advancing and settling columnar chunks, in memory or paged out, do what they do to plain lists of updates, without panicking; batches of columnar chunks merge and accumulate, and their cursors show the updates.", "quantifier": "all updates, cuts into chunks, chunk sizes, decisions what to page out, fuel, frontiers and navigations", "why_tests_cant": "Offsets in four nested columns must agree for every combination of shared and distinct keys, values and times at every boundary.", "anchors": ["differential-dataflow/src/columnar/updates.rs: Updates, UpdatesTyped, UpdatesBuilder", "differential-dataflow/src/columnar/trie_merger.rs: merge_pair, survey, write_layer, write_diffs, split_at, extract", "differential-dataflow/src/columnar/trace/chunk.rs: ColChunk, ColChunkCursor", "differential-dataflow/src/columnar/trace/spill.rs: try_page"]}
{"id": "C57", "title": "Columnar collections keep their updates through builder, exchange and chunker", "statement": "The containers of a columnar collection hold what was pushed to their builder, consolidated, in consecutive stretches; negation, entering and leaving scopes, and one step of feedback act on each update and keep the claim that a container is consolidated only if it is; the exchange sends each update to the worker its key's hash names, and no worker an empty message; the chunks formed from containers in any order add up to the containers and respect the target size; and the record counts that progress tracking uses are conserved by the exchange of every container with an update whose count covers its updates.", "quantifier": "all sequences of pushes, extracts and finishes, all updates, target sizes, hash functions, numbers of workers and orders of messages", "why_tests_cant": "Chunk boundaries, residues and key runs across workers combine in unboundedly many ways; record counts must agree for every key distribution.", "anchors": ["differential-dataflow/src/columnar/collection/container.rs, operators.rs: RecordedUpdates, join_function, leave_dynamic", "differential-dataflow/src/columnar/collection/builder.rs: ValBuilder", "differential-dataflow/src/columnar/collection/exchange.rs: ValDistributor", "differential-dataflow/src/columnar/trace/chunker.rs: TrieChunker"]}
{"id": "C58", "title": "The half join that keeps proposals in blobs answers each proposal once", "statement": "The half_join of half_join2, whatever is delivered, whenever it is activated and wherever it is asked to yield, has at all times sent what together with the answers to the proposals it keeps back makes up the answers to all proposals; it never panics; it holds capabilities for exactly the initial times of what it keeps back; if it is never asked to yield it keeps back only proposals that the frontier of the arranged input may still affect, and never asks to be activated; two such half joins, comparing strictly and not strictly by the total order of times, make a join.", "quantifier": "all streams of proposals, histories of the arranged input, times, schedules, frontiers, compaction allowances and answers of the yield function", "why_tests_cant": "When proposals become ready, how ready ones are split by yields, and how capabilities follow them depends on unboundedly many interleavings of the two inputs.", "anchors": ["dogsdogsdogs/src/operators/half_join2.rs: half_join, half_join_internal_unsafe, Blob"]}
{"id": "C59", "title": "Optimizing an interactive program does not change what it computes", "statement": "Program::optimize, on any program whose references name what is there and in which no chain of linear operators delays records with enter_at and in a later operator looks at times with enter_at or lift_iter, does not panic and yields a program with the same imports and export names that, for all inputs and traces, has the same exports at all times; it has no more operators, good references, no arrangement of an arrangement, no linear operator that is the only use of another, and no operator twice.", "quantifier": "all programs: trees of scopes of any depth with feedback, all operators, terms and inputs", "why_tests_cant": "The rewrites interact: each may enable others in the same or an enclosing scope, indices are renumbered, and a single wrong index silently reads another collection; programs and inputs are unbounded.", "anchors": ["interactive/src/scope_ir.rs: Scope::optimize, collapse_arranges, fuse_linear, dedup, use_counts, redirect, compact", "interactive/src/backend/mod.rs: render_tree", "interactive/src/backend/vec.rs: render_linear"]}
{"id": "C60", "title": "An interactive program means one thing, at every moment what it would compute from scratch", "statement": "The collections a quiescent rendered program exports are determined by its inputs and traces, however deep its scopes and whatever its feedback; as of any moment they are what the program makes of the inputs as of that moment, run on nothing else; and they do not depend on later changes of the inputs.", "quantifier": "all programs, inputs, traces and moments", "why_tests_cant": "Feedback makes each collection depend on itself; that one consistent assignment exists at most, and that it agrees with a run from scratch at every moment, concerns all histories.", "anchors": ["interactive/src/backend/mod.rs: render_tree, Binding, feedback", "interactive/src/backend/vec.rs: render_linear, join, reduce, arrange", "interactive/src/ir.rs: eval"]}
{"id": "C61", "title": "Lowering an interactive program keeps its meaning, in any order of its statements", "statement": "lower_tree, on a program whose names are defined once per scope and whose exports are at the root, succeeds exactly if the program makes sense: every name used is defined in its scope or around it, every field is one of its scope's, inputs and imports are used at the root only, and lets and scopes can be ordered so that each comes after what it uses; the resulting tree has good references and the export names of the text, and for all inputs and traces exactly the exports that the equations of the text have, where each name is what its statement says; permuting statements changes nothing but the order of exports; and a program without enter_at, lowered and optimized, still means what its text says.", "quantifier": "all programs: statements in any order, scopes of any depth, shadowing, references to grandparents and to fields, expressions, inputs and traces", "why_tests_cant": "Names are resolved through environments that change as lowering proceeds, imports are threaded through every scope on a path, and fields are numbered by first use; the order of lowering depends on the whole dependency graph.", "anchors": ["interactive/src/lower.rs: lower_tree, lower_scope_tree, ScopeLower, expr_deps, collect_body_free_names, qualified_fields", "interactive/src/parse/mod.rs: Expr, Stmt"]}
{"id": "C62", "title": "A cloned program means what the original means, and shows what every place inside it has", "statement": "clone_identity of a program whose references name what is there, and whose nested scopes import from their parents, does not panic and gives a program with the same imports and export names, which for all inputs and traces has exactly the exports of the original. clone_into, into any scope and with any references for the imports, adds the exports of the original read at those references, leaves everything that was read in the scope before as it was, and lists one reference for each operator and variable of the original, nested ones included, at which the scope has what the original has at that place: nested values with the rounds of the loops they are in appended to their data.", "quantifier": "all scope trees of any depth and shape, all host scopes, import maps, inputs, traces and collections", "why_tests_cant": "References of the original are renumbered by offsets that depend on what precedes them and on the exports added to nested scopes; a wrong offset makes a valid but different reference, which shows only for programs of the right shape.", "anchors": ["interactive/src/explain/mod.rs: clone_into, clone_identity, clone_rec, map_ref, clone_node", "interactive/src/scope_ir.rs: Scope, Ref, Item"]}
{"id": "C63", "title": "Scalar terms compute what the language says, and reducers keep what their names say", "statement": "A term has, in an environment, exactly the value that the language's rules give it, and panics exactly if they give it none: projections from places without copying agree with evaluation, spreads splice, case and fold bind, logical operators evaluate their second operand only if needed, comparisons follow the order of values. hash is between 0 and 2^63 and below its bound. At each time min has the least value of each key that is there, distinct the unit, count the positive total of the key's multiplicities, collect the list of values in order with multiplicities; and flatmap of a collected list gives the values back, with their positions, as often as they were there.", "quantifier": "all terms, environments, values and bounds; all collections, keys, values and times", "why_tests_cant": "Terms nest without bound and evaluation has two paths for projections; reducers are applied to whatever values accumulate at a key, including negative multiplicities.", "anchors": ["interactive/src/ir.rs: eval, eval_ref, build_seq, eval_unary, eval_binary, Value", "interactive/src/lib.rs: hash_u64", "interactive/src/backend/vec.rs: Backend::reduce, render_linear (FlatMap)"]}
{"id": "C64", "title": "A live server keeps what its programs read alive, refuses what would break them, and shows what is there", "statement": "After any sequence of install, feed, tick, drop and peek commands: every running dataflow reads only published traces of running dataflows; a program can be dropped exactly if it is installed and nothing running has imported any of its exports, and then it and its exports go and nothing else; a program can be installed exactly if its name is free, its imports are published or sources the server can make, and its exports are neither published nor imported, and no other program is disturbed; a row is accepted exactly if its time is not before the epoch and it is for an input of a program, and is then recorded exactly; refused commands change nothing but perhaps add sources; a peek shows every matching row of a trace with its total over all times before the epoch, whatever was compacted; the clock has exactly the current time; generated sources have each row at exactly one worker; and all workers have the same registry. No command panics if generated sources draw from non-empty ranges, and everything running belongs to an installed program if programs do not take the names of sources.", "quantifier": "all sequences of commands, programs, names, rows, times, numbers of workers and states reached", "why_tests_cant": "Lifetimes depend on counters changed by every install and drop in any order, compaction on every tick, and sources appear by name on demand; histories are unbounded.", "anchors": ["interactive/src/server.rs: Server::install, feed, tick, peek, drop, install_generated, install_clock, Recipe, canonical_source_name", "interactive/examples/ddir_server.rs: dispatch", "interactive/src/lib.rs: gen_row_seeded"]}
{"id": "C65", "title": "Scalar terms in the pipe syntax are read as the grammar says and mean what is written", "statement": "A sequence of tokens, followed by one that does not continue a term, is accepted exactly if it is a term of the grammar (conjunctions of comparisons of sums of products of negated terms that may be indexed, each associating to the left) whose names are bound by an enclosing pattern, whose constructors and functions are known and have as many arguments as they take, and whose cases have an arm for every tag below the ones they mention or a default. The term then evaluates, for any rows, to what is written: names stand for the fields of the payload their pattern matched however many patterns and folds are between, a case takes the first arm with its constructor or else the last default, constructors make their tag. This is so however the text can be derived from the grammar, and provided that a default that stands in for an omitted tag uses no names or ^k from outside.", "quantifier": "all sequences of tokens, sets of declared constructors, rows and nestings", "why_tests_cant": "Texts and nestings are unbounded, and names are resolved to positions counted from the top of a stack that folds and patterns push to.", "anchors": ["interactive/src/parse/pipe.rs: parse_term, parse_logic, parse_cmp, parse_add, parse_mul, parse_unary, parse_primary_term, parse_fold, parse_pattern_case, parse_args, parse_builtin, resolve_binder", "interactive/src/parse/mod.rs: build_builtin", "interactive/src/ir.rs: eval"]}
{"id": "C66", "title": "Programs in the pipe syntax are read as the grammar says", "statement": "A sequence of tokens that closes no brace it has not opened is accepted exactly if it is a program of the grammar: declarations of constructors, let, var and export statements and named scopes, over expressions in which operators are piped to the right of sums and differences of inputs, imports, names, qualified names and parenthesised expressions. The statements that result are those the grammar gives, of which there is one way only: a piped operator applies to the whole sum to its left, a difference adds the negation of what follows, a bare row in a projection stands for all its parts, projections without a semicolon have no values, the right side of a join is piped but not summed, and a constructor is known from its declaration on, in scopes and after them.", "quantifier": "all sequences of tokens, nestings of scopes and expressions, and declared constructors", "why_tests_cant": "Programs are unbounded in length and nesting, and acceptance is about all texts, including the malformed ones.", "anchors": ["interactive/src/parse/pipe.rs: parse, parse_program, parse_stmt, parse_pipe_expr, parse_concat_expr, parse_atom, parse_join_arg, parse_pipe_op, parse_projection, parse_projection_inner, parse_field_list_until, parse_proj_field"]}
{"id": "C67", "title": "Texts in the pipe syntax are cut into the longest tokens that can be read", "statement": "A text is accepted by the tokenizer exactly if it is a sequence of blanks, comments, symbols, quoted names, numbers that fit a signed 64-bit integer, reserved words and names, each the longest that can be read at its place; its tokens are what these stand for, in order, and there is one way only. Texts can be put line after line: the tokens of each stay what they are, whatever the comments. A text whose tokens close no brace they have not opened is parsed exactly if its tokens are a program of the grammar, to the statements of that program.", "quantifier": "all texts, as sequences of bytes", "why_tests_cant": "Texts are unbounded, and which token is read depends on what follows it.", "anchors": ["interactive/src/parse/pipe.rs: tokenize, parse"]}
{"id": "C68", "title": "Programs in the applicative syntax are accepted exactly if they follow its grammar, and mean what it says", "statement": "A sequence of tokens of the applicative syntax that closes no brace it has not opened is parsed exactly if it is a program of the grammar, to the statements of that program, and there is one way only. Collection expressions are accepted exactly if they are applications of the operators the grammar lists, with the arguments in its order; their terms and projections are those of the pipe syntax without constructors. Every expression of the applicative syntax without a sum of a single part can be written in the pipe syntax too.", "quantifier": "all sequences of tokens, of any length and nesting", "why_tests_cant": "Programs nest without bound, and a parser must reject every text outside the grammar as well as accept those in it.", "anchors": ["interactive/src/parse/applicative.rs: parse, Parser"]}
