# A Rocq model of differential dataflow

Source modelled: `/repo` (TimelyDataflow/differential-dataflow at the pinned commit), read as text.
Nothing was compiled or run.  Proof assistant: Coq 8.16.1, standard library only.

## 1. Layout

| directory (under `rocq/theories`) | content |
|---|---|
| `Base/`   | ordered types, lists, lattices, difference monoids: classes with their laws, generic lemmas |
| `Spec/`   | the independent specification: what a collection is, what it accumulates to at a time, what a frontier's future is |
| `Model/`  | executable Gallina functions, one per Rust function, each citing file and lines |
| `Proofs/` | lemmas and invariants |
| `Props/`  | the property theorems only: statement, `exact lemma`, `Print Assumptions`, and an `Example` instantiating the hypotheses |

## 2. Conventions of the model

* **Times** are any type with the class `Time`: a decidable partial order with `join`, `meet`, and a total order
  (`Ord` in Rust) that is a linear extension of the partial order.  These are exactly what
  `Lattice + Timestamp + Ord` promises; C01 proves that the library's own time types satisfy them.
* **Differences** are any commutative monoid with a decidable zero (class `Diff`), refined to groups (`Abelian`)
  and bilinear products (`Multiply`) where the Rust code asks for these.  A Rust `Semigroup` without zero (such as
  `Present`) is covered by adjoining a zero.
* **Collections** are lists of `(data, time, diff)`; two collections mean the same thing when `acc c d t` (the sum of the
  differences of updates of `d` at times `<= t`) agree; after compaction to a frontier `F`, when they agree at every `t` at or beyond `F`.
* `&mut` functions return the new value.  Panics (`assert!`, `unwrap`, indexing) are explicit `None`/`Err` results, and
  theorems either prove they cannot occur or have the exact guard in the statement.
* Loops become structural recursion; where a loop has no structural measure, recursion on fuel with an explicit
  out-of-fuel error, and a theorem that enough fuel exists.
* `sort`/`sort_unstable_by` is modelled by insertion sort; results that are claimed are proved for *any* sorted permutation.
* Timely (not in `/repo`): `Antichain`, `MutableAntichain`, capabilities, channels and progress statements are modelled from
  their documented behaviour (timely 0.31); this is part of the trusted base.

## 3. Properties: what is modelled and how it is proved

Theorems for property Cnn are named `cnn_*`, in the file given; `MANIFEST.json` lists them all with a note on their scope.

| id | model (in `Model/`) | theorems (in `Props/`) | how |
|---|---|---|---|
| C01-C04 | LatticeM: `join`, `meet`, `less_equal` of integers, `()`, `Product`, pairs, `PointStamp`, `AltNeu`; `advance_by`; `antichain_join`, `antichain_meet` | LatticeProps, PointStampProps | lattice algebra, induction over frontiers |
| C05 | DifferenceM: every impl in `difference.rs`, machine integers modulo `2^n` | DifferenceProps | algebra |
| C06, C07 | ConsolidationM (in-place loops with explicit bounds), BuilderM | ConsolidationProps | loop invariants; canonical form |
| C08, C09 | MergeBatcherM | BatcherProps | refinement to the multiset of retained updates |
| C10-C12 | OrdNeuM, CursorM: offset arrays, builders, fuelled mergers, cursors, `advance` | ContainerProps, OrdNeuProps | abstraction from offsets to sorted tries; invariant over fuel |
| C13, C42 | CursorM: `CursorList` | CursorListProps | refinement to a sorted map of sums |
| C14-C17 | SpineM | SpineProps | invariants over operation histories; amortised potential for C17 |
| C18, C19 | AgentM: `TraceBox`, `TraceAgent`, `TraceWriter`, listener queues, import | AgentProps | counting invariants over histories |
| C20 | ArrangeM | ArrangeProps | composition of C07-C19 |
| C21, C22, C43 | HistoryM, JoinM, JoinDriverM, JoinTacticM | HistoryProps, JoinProps, ThinkProps | invariant: sent + owed = pairs acknowledged |
| C23-C25 | ReduceM: driver, generic over its tactic; `retire`, the cursor tactic; per-key `compute`, tiling | ReduceProps, ReduceRunProps | a contract for tactics (`retires`, from the documentation of `ReduceTactic`), met by the cursor tactic; invariant over rounds; refuted in general, see 5 |
| C26, C27, C46 | TotalM | TotalProps | invariant over batches; C46 is false when records leave (refuted) and proved for runs whose differences never add up to zero, by showing that such a run is also one of threshold_total |
| C28 | UpsertM | UpsertProps | invariant over batches |
| C29 | IterateM | IterateProps | induction over the iteration coordinate |
| C30-C32 | CollectionM, WrappersM | LinearProps, WrapperProps | algebra of accumulation |
| C33 | InputM | InputProps | invariant over call sequences |
| C34 | CaptureM, CaptureSourceM | CaptureProps, CaptureSourceProps | invariant over message sequences |
| C35, C36 | PointStampM | PointStampProps | coordinate-wise reading as functions |
| C37 | HalfJoinM, AltNeuM, CalculusM | HalfJoinProps | invariant over activations; split of pairs by a total order |
| C38-C40 | ChunkM, ChunkCursorM | ChunkCursorProps, ChunkProps | induction over chunk sequences |
| C41, C45 | ContainerM | ContainerProps | induction over pushes |
| C44 | PrefixSumM | PrefixSumProps | induction over binary expansion |
| C47 | LookupM, ExtendM | LookupProps | invariant over activations |
| C48-C52 | GraphM | GraphProps | induction over rounds; walks of length up to the round |
| C53 | IdentifiersM | IdentifiersProps | each record has exactly one round; rounds only go up |
| C54 | ProxyJoinM | ProxyJoinProps | the matches are the join by hash of the bridges; crossing is additive; keys that differ in hash or value match nothing |
| C55 | ProxyReduceM (the search), ProxyTacticM (windows, rounds, tiles, `retire`); the backend is specified in ProxyReduceSpec, and one is given in ProxyBackendP | ProxyReduceProps | invariant over the events of the search; what was forgotten cancels; the last moment before a time decides; the tactic meets the same contract as the cursor tactic, so the operator is right with it; refuted beyond the interval in general, see 5 |
| C56 | ColumnarM (tries of four nested columns, the merge of two of them by surveys, melding, splitting, advancing, the chunk type, its cursor) | ColumnarProps | the columns as lists of lists; each operation on columns commutes with flattening; the trie of a list is unique; ColChunk keeps the laws of C38-C40 (`ChunkLaws`, `NavigableLaws`), so what is proved there holds for it; what a paged chunk decodes to is taken to be what was encoded |
| C57 | ColCollM (the container, its operations, the builder, the exchange, the chunker, and the operators that go through a builder) | ColCollProps | runs of arbitrary calls; an invariant of builder and chunker relating what is held back to what was pushed; the exchange by runs of equal keys, each copied as a range of the trie's columns (`ColListsP`); `c57_to_chunks` composes session, exchange and chunker |
| C58 | HalfJoin2M (blobs: arrival, promotion of stuck entries, processing, capabilities) | HalfJoin2Props | runs as in C37; an invariant of blobs: the ready prefix sorted by key and released by the frontier, the stuck suffix sorted by initial time, counts of initial times, capabilities as their frontier; needs the comparison to follow the total order, which a refutation shows |
| C59, C60 | DdirM (values, terms and their evaluation, linear operators, reducers), ScopeIrM (scope trees and `optimize`), RenderM (what a rendered program means: a relation between the collections on the edges of a quiescent dataflow; feedback by `feedback_summary`, leaving by truncation of point stamps) | DdirProps | C59: each pass keeps the solutions of the relation, marks an item per round, and leaves nothing to rewrite; compaction by the rank of live items. C60: induction over scopes and rounds, with agreement on down-closed sets of times; taking updates up to a moment commutes with every operator |
| C61 | LowerM (statements and expressions, free names, dependencies, the lowering of scopes); the meaning of a text and which texts make sense in SourceSpec, without an order of statements | LowerProps | an invariant of the lowering state relating names, fields and values both ways; success by a least pending item in a rank, and a rank from the order of a successful lowering; composed with C59 |
| C62 | ExplainCloneM (references remapped, nodes copied, nested scopes cloned with their places exported); the places of a scope and what is at each in CloneSpec | CloneProps | a relation between the values of the original and those of the clone, built forth and back by induction over scopes; lifts of nested places composed level by level |
| C63 | DdirM (eval, eval_ref, the reducers' functions, flat_map), RenderM (reduced_to); a big-step semantics of terms and what each reducer should have in TermSpec | TermProps | induction over terms and over derivations; sums over the records of a key; sortedness of consolidated values |
| C64 | ServerM (server.rs: names and recipes, install, feed, tick, peek, drop, generated and clock sources; the example's dispatch); what runs, is published, installed and shown in ServerSpec | ServerProps | an invariant of the registry and the worker kept by every command: import counts are the uses by running dataflows; contents of sources by induction over commands; agreement of workers by simulation |
| C65 | PipeParseM (parse/pipe.rs: the term parser on tokens; parse/mod.rs: build_builtin); the grammar in PipeSpec, the meaning of terms with names, and which are accepted, in PipeMeansSpec | PipeProps | completeness by induction on derivations of the grammar, with the fuel each level needs; soundness by induction on fuel for all parser functions at once; meaning by induction on terms, relating the parser's binders to the stack |
| C66 | PipeProgM (parse/pipe.rs: statements, collection expressions, operators and projections on tokens); the grammar in PipeProgSpec | PipeProgProps | completeness by mutual induction on derivations of the grammar, with the fuel they need; soundness by induction on fuel for all parser functions at once; programs have balanced braces, so nothing is left over unless a brace is stray |
| C67 | TokensM (parse/pipe.rs: tokenize, on bytes); what texts consist of and stand for, and which is the longest, in TokensSpec | TokensProps | a turn of the tokenizer takes the longest lexeme, by cases on its first character; by induction on fuel and on the sequence of lexemes; with C66, from texts to statements |
| C68 | ApplicativeM (parse/applicative.rs: statements, expressions, projections and terms on tokens); the grammar in ApplicativeSpec, on that of PipeSpec for terms | ApplicativeProps | terms: the parser agrees with that of the pipe syntax on tokens without constructors, by induction on fuel; expressions and programs: completeness by induction on derivations, soundness by induction on fuel, braces balanced; into pipes by induction on derivations |

Assumptions that appear in the statements, and why they hold of the code:

* *Input of batch builders is consolidated and chunks are not empty* (C09, C10): what the chunker and the batcher emit; proved
  in the composition C20, and both are shown to be needed by refutations.
* *Frontiers are identified up to order* (`same_future` in Spec/BatchLaws): an antichain's vector may list its elements in any
  order, and no function of the library reads that order except to iterate.
* *`prompt` / `timely`* (C23, C26, C27): a batch is delivered to the operator no later than the frontier passes it, and no empty batch is
  left on the stream when later ones are delivered.  `arrange_core` and `import` do deliver in this way.
* *`compatible`* (C37): the comparison is a total order consistent with the frontier function; the ones used in the examples are
  shown to satisfy it.
* *Operators as functions on collections* (C44, C48-C53): algorithms written as compositions of operators are modelled on the accumulated
  collections at one time, with a parameter for the number of rounds that `iterate` runs; C21, C23, C27, C29, C30 are what
  establishes that operators act in this way.  Counts are integers there, and distances natural numbers rather than `u32`.

## 4. Trusted base

* Coq's kernel (8.16.1) and its virtual machine (used by `vm_compute` in examples and refutations).  There are no axioms of our own.
  `Print Assumptions` follows each property theorem and says "Closed under the global context" for every one.  `coqchk` lists, for the
  libraries loaded, the seven axioms of `Coq.ssr.ssrunder` (module parameters of the standard library's `under` tactic); no theorem
  depends on them.
* The reading of the Rust sources into the model: every definition cites what it models and says where it simplifies.
* Timely (not in `/repo`): `Antichain`, `MutableAntichain`, capabilities, channels, input handles and progress statements are
  modelled from their documented behaviour.  Machine integers are unbounded except where stated (differences, point stamps, time
  summaries).
* Not modelled: threads and networking, serialization, memory layout (`Rc`, columnation, spilling), logging, hashing and
  exchange (one worker's share is modelled, except that the columnar exchange is modelled for all workers), scheduling liveness, performance beyond the bounds stated in C17; the bytes of the `columnar` module
  (its tries are modelled, their encoding is not); the token that ends a captured source (`capture::source::build` itself is modelled); of the `interactive` crate the tokenizer of the applicative syntax, `explain` after the clone (`resolve`, the transform, `decouple`), the columnar
  back end, of the server its probes (a tick is taken to return once programs have caught up), printing, command lines, channels and threads, what `inspect` prints, panics of scalar terms inside a program's meaning, and overflow of its integers; the examples.

## 5. Findings

Statements one would expect, that are false of the code as modelled.  Each is a theorem with a concrete witness.

| theorem | what goes wrong |
|---|---|
| `c23_reduce_refuted` | `reduce` over partially ordered times can leave the output wrong for ever.  In the run, in the second activation a time of the history, (7,0), is advanced by the meet (1,1) of what remains to (7,1), which is beyond the upper bound (5,1).  Times beyond upper that are not known to be interesting are not joined with the times of the batch (`if !upper_limit.less_equal(&next_time)`), so their join (7,2) is never pended, and the correction due there is never made. `discover_times` in `common.rs` has the same structure. |
| `c46_distinct_total_refuted` | `distinct_total` never retracts a record whose count returns to zero: its threshold function is constantly one. |
| `c42_seek_val_skips_values_of_later_keys_refuted`, `c42_seek_val_panics_at_exhausted_source_refuted` | `CursorList::seek_val` moves also the cursors of sources at other keys. |
| `c35_slice_equality_refuted` | `PointStamp == [T]` compares only a prefix. |
| `c36_composition_forgets_overflow_refuted` | `followed_by` may be defined where acting twice is not. |
| `c45_slices_clone_onto_refuted` | `SliceContainer`'s `clone_onto` panics when lengths differ. |
| `c05_vector_zero_identity_refuted` | vectors of differences: zero is an identity only up to trailing zeros. |
| `c09_merge_empty_chunk_refuted`, `c10_val_builder_needs_consolidated_input_refuted` | preconditions of the merger and the builder that the types do not state. |
| `c32_times_beyond_since_refuted`, `c32_compaction_past_until_refuted` | `BatchFrontier`: what the wrapper's `since` and `until` do not guarantee. |
| `c34_repeats_within_a_message_refuted`, `c34_progress_writer_stalls_refuted` | capture: an update repeated in one message counts twice; the writer keeps progress statements queued once the frontier stops. |
| `c34_source_message_times_refuted` | capture source: with partially ordered times updates are sent with the first of several capabilities, which need not be at or before their times (the code has a TODO). |
| `c37_altneu_partial_order_refuted`, `c37_strictly_needs_earlier_refuted` | delta queries over partially ordered times lose pairs of concurrent changes; a strict comparison needs an earlier frontier function. |
| `c40_seek_backward_refuted` | a chunked batch's `seek_key` also moves back. |
| `c44_associative_only_refuted` | `prefix_sum` needs `zero` to be a right identity, which is not documented. |
| `c47_validate_ignores_multiplicity_refuted` | `extend` treats relations as sets. |
| `c52_every_node_refuted` | `sequence` drops nodes that no edge brings a value to, and then their successors. |
| `c53_every_hash_refuted` | `identifiers` does not stop for every hash function. |
| `c56_advance_default_refuted` | columnar chunks: differences at equal advanced times are summed from `Diff::default()`; where that is not neutral, advancing times changes the differences. |
| `c57_records_lost_refuted` | columnar exchange: a container whose updates all cancelled, which the builder does produce, has a positive record count but is sent to nobody, so the progress counts of sender and receivers differ with two or more workers. |
| `c57_records_made_up_refuted` | columnar exchange: every message after the first gets one record whatever its size, so exchanging it again by another hash can send more records than were received. |
| `c57_enter_refuted` | columnar containers keep the flag `consolidated` on entering a scope; with a `to_inner` that is not strictly monotone the claim is false. |
| `c58_half_join_stalls_refuted` | `half_join2` with a yield function can stop for good with answerable proposals kept back and a capability held: stuck proposals of a blob are looked at only when the blob has no ready ones, and the operator asks for another activation only while some are ready; if the last frontier change arrives while ready ones are left from a yield, nothing activates the operator again.  The first form of the operator does not do this. |
| `c58_partial_order_refuted` | `half_join2` with a comparison fit for the first form, but not monotone in the total order, answers proposals too early: it looks at the least time of the frontier only. |
| `c55_proxy_round_refuted` | A round of the proxy tactic that starts with the output right at all times can leave it wrong at a time beyond the interval, with nothing kept for it.  The source has an update at (6,0,1), where compaction put it, beyond the upper bound (5,0,1); new updates are at (1,7,1) and (2,0,7), whose meet is before (6,0,1) though neither is.  `discover_times` finds (6,0,1) uninteresting and beyond upper, and does not join it with (1,7,1), so that (6,7,1) is neither visited nor kept.  (On the witness of `c23_reduce_refuted` the proxy tactic is right.) |
| `c59_fuse_delays_refuted` | interactive: `fuse_linear` changes what a program computes.  `x \| enter_at(a) \| enter_at(b)` joins the two delays; fused into one operator the second replaces the first (`render_linear` assigns the delay). |
| `c59_fuse_round_refuted` | interactive: `x \| enter_at(a) \| lift_iter` appends the round of the delayed record; fused, the round before the delay. |
| `c61_inner_export_refuted` | interactive: an `export` inside a scope, which the AST calls invalid, is accepted by the parsers and by lowering, and forgotten. |
| `c62_dangling_refuted` | interactive: cloning a program that refers to an export its nested scope does not have gives a program that refers to the export added there for explaining; the clone has a meaning although the original has none. |
| `c64_owned_refuted` | interactive: a program may be installed under the name `clock` or of a generated source; when another program imports that source, the source replaces it in the registry.  The replaced program runs on, publishes, and can be neither fed nor dropped. |
| `c64_named_refuted` | interactive: a program installed under another spelling of a generated source's name (`iota:03`) is kept under that spelling, but `feed` and `drop` look for the canonical one (`iota:3`), so it can never be fed or dropped. |
| `c64_no_panic_refuted` | interactive: importing `random:nodes=0,edges=1` takes a remainder by zero and panics the workers. |
| `c65_gap_refuted` | interactive: `case` fills the tags between its arms with copies of the `_` default; an arm is evaluated with the payload on the stack, but the default was parsed without it, so a default that uses a name from an enclosing pattern reads the wrong value for those tags: `case $0 { A(a) => case $1 { B(b) => b, _ => a }, ... }` gives `$1`'s payload instead of `a` when `$1` is an `A`. |
| `c65_whole_text_refuted` | interactive: `parse_term` ignores what follows the term, so `1 ) 2` is accepted as `1`. |
| `c66_stray_brace_refuted` | interactive: a `}` that closes nothing ends the program, and `parse` does not look at what follows, so the rest of the text is dropped without notice. |
| `c68_stray_brace_refuted` | interactive: the same holds of the applicative syntax. |
| `c66_field_refuted` | interactive: a projection field that begins with a bare `$n` is taken to be that row, so `map($0 == $1)` is refused although `$0 == $1` is a term, `filter($0 == $1)` is accepted, and so is `map(($0 == $1))`. |

Also seen, and excluded by hypotheses: `count_total`, `threshold_total` and `reduce` go back if an empty batch is delivered after
`advance_upper` has passed it; `get_val` of the ord_neu cursor panics when the key is not valid; `pack` passes on empty chunks; `extend` with
no extenders panics.  Of `interactive`: a `var` at the root panics when rendered (`feedback_summary(0, 1)`); duplicate names are not
rejected as the comment in `lower.rs` says: a `let` and a `var` of one name shadow each other silently, two `let`s of one name panic on a
missing map entry; `scope::name` is accepted for names that are only imported into the scope; `validate_lift_iter`, which a comment names,
does not exist; an `enter_at` at the root yields times with a round.
