{"id": "C01", "title": "MutableVec subscribers reconstruct the vec exactly", "statement": "A signal_vec() obtained from a MutableVec at any moment is lossless: whenever the subscriber has polled everything that is available, applying the VecDiffs it received, in order, to an empty Vec succeeds without panicking and gives exactly the current contents of the MutableVec; applying only a prefix of them gives exactly the contents the MutableVec had at the corresponding earlier moment.", "quantifier": "every initial contents, every finite history of lock_mut operations (push, pop, insert, remove, set, replace, clear, retain, drain, truncate, move, swap, reverse, extend, apply_vec_diff) interleaved with any number of subscribers being created, polled and dropped at any moments", "why_tests_cant": "histories are unbounded and subscribers may join at any of them; a test samples a few fixed histories and a few poll points", "anchors": ["src/signal_vec.rs:MutableVecState::notify_with", "src/signal_vec.rs:MutableVecState::signal_vec_copy", "src/signal_vec.rs:MutableVecLockMut", "src/signal_vec.rs:MutableSignalVec::poll_vec_change", "src/signal_vec.rs:VecDiff::apply_to_vec"]}
{"id": "C02", "title": "MutableVec operations do to the contents what the Vec operation of the same name does", "statement": "After each lock_mut operation the contents (and the returned value) are those of the corresponding std::vec::Vec operation: swap exchanges exactly two positions, reverse reverses, move_from_to removes at one index and re-inserts at the other, retain keeps exactly the elements accepted in their order and asks the predicate once per element in order, truncate keeps the first n, drain removes exactly the range, and so on.", "quantifier": "every contents and every argument, in range or not", "why_tests_cant": "swap, reverse, retain, truncate and drain are re-implemented as sequences of moves/removals; a fixed test exercises a handful of lengths and index pairs", "anchors": ["src/signal_vec.rs:MutableVecLockMut::swap", "src/signal_vec.rs:MutableVecLockMut::reverse", "src/signal_vec.rs:MutableVecState::retain", "src/signal_vec.rs:MutableVecState::truncate", "src/signal_vec.rs:MutableVecState::drain", "src/signal_vec.rs:MutableVecState::remove_range"]}
{"id": "C03", "title": "MutableVec operations that change nothing notify nobody", "statement": "pop, clear on an empty vec, move_from_to or swap of an index with itself, truncate to a length not smaller than the current one, retain that keeps everything, drain of an empty range, and reverse of a vec of length at most one send no VecDiff to any subscriber and leave the contents unchanged; conversely every operation that changes the contents sends at least one VecDiff to every live subscriber.", "quantifier": "every contents, every argument and every set of live subscribers", "why_tests_cant": "the claim is a universally quantified absence of messages", "anchors": ["src/signal_vec.rs:MutableVecState::pop", "src/signal_vec.rs:MutableVecState::clear", "src/signal_vec.rs:MutableVecState::move_from_to", "src/signal_vec.rs:MutableVecState::truncate", "src/signal_vec.rs:MutableVecState::retain", "src/signal_vec.rs:MutableVecState::remove_range"]}
{"id": "C04", "title": "An operation that panics sends nothing", "statement": "If a MutableVec operation panics (index or range out of bounds), no subscriber has received any VecDiff from it, and the operation panics exactly when its documented index condition is violated.", "quantifier": "every contents, every argument, every set of subscribers", "why_tests_cant": "the panic paths of compound operations (swap, drain, retain) have to be checked for all index combinations", "anchors": ["src/signal_vec.rs:MutableVecLockMut::swap", "src/signal_vec.rs:convert_range", "src/signal_vec.rs:MutableVecState::insert_copy", "src/signal_vec.rs:MutableVecState::set_copy", "src/signal_vec.rs:MutableVecState::remove"]}
{"id": "C05", "title": "Subscribers of one MutableVec do not influence each other", "statement": "Each live subscriber receives exactly one copy of each VecDiff, in the order of the operations; dropping, polling or not polling one subscriber never changes what another receives; a dropped subscriber is forgotten at the next notification.", "quantifier": "every number and order of live and dropped subscribers and every operation history", "why_tests_cant": "the notification loop hands out n-1 clones and one original while dropping dead channels on the way; a test uses one or two subscribers and rarely dead ones", "anchors": ["src/signal_vec.rs:MutableVecState::notify", "src/signal_vec.rs:MutableVecState::notify_with"]}
{"id": "C06", "title": "Replaying a VecDiff stream into another MutableVec replicates it", "statement": "Feeding the VecDiffs received from one MutableVec into apply_vec_diff of a second one makes the second equal to the first, and the subscribers of the second receive a stream from which they in turn reconstruct the same contents.", "quantifier": "every history of the first vec, any number of replication hops", "why_tests_cant": "needs all histories and all diff kinds, including composition", "anchors": ["src/signal_vec.rs:MutableVecLockMut::apply_vec_diff", "src/signal_vec.rs:VecDiff::apply_to_vec"]}
{"id": "C07", "title": "VecDiff::apply_to_vec has the documented element-wise meaning", "statement": "For each VecDiff kind the resulting Vec is characterised index by index: Replace gives the new values, InsertAt shifts the tail right by one, UpdateAt changes one index only, RemoveAt shifts the tail left, Move removes then inserts, Push/Pop act on the end, Clear empties; it panics exactly when the index is out of the allowed range, or on Pop of an empty Vec.", "quantifier": "every Vec and every VecDiff", "why_tests_cant": "index arithmetic at every position of every length", "anchors": ["src/signal_vec.rs:VecDiff::apply_to_vec", "src/signal_vec.rs:VecDiff::map"]}
{"id": "C08", "title": "SignalVec map mirrors the mapped source and calls the closure once per value", "statement": "After any number of polls the VecDiffs output by map reconstruct the source contents with the closure applied to each element, and the closure has been called exactly once for every value carried by the source diffs, in order.", "quantifier": "every source (any sequence of poll responses whose diffs are in range) and every number of polls", "why_tests_cant": "all diff sequences of all lengths", "anchors": ["src/signal_vec.rs:Map::poll_vec_change", "src/signal_vec.rs:VecDiff::map"]}
{"id": "C09", "title": "filter mirrors the filtered source", "statement": "After any number of polls the VecDiffs output by filter are applicable without panic and reconstruct exactly the source elements accepted by the predicate, in source order; the predicate is called exactly once per value carried by the source diffs.", "quantifier": "every source, every predicate, every number of polls", "why_tests_cant": "index translation depends on the whole accept/reject pattern of the preceding elements; tests cover a few patterns", "anchors": ["src/signal_vec.rs:Filter::poll_vec_change", "src/signal_vec.rs:poll_filter_map", "src/signal_vec.rs:find_index"]}
{"id": "C10", "title": "filter_map mirrors the filter-mapped source", "statement": "After any number of polls the VecDiffs output by filter_map are applicable without panic and reconstruct exactly the Some results of the closure, in source order; the closure is called exactly once per value carried by the source diffs.", "quantifier": "every source, every closure, every number of polls", "why_tests_cant": "as for filter: all accept/reject patterns and all diff sequences", "anchors": ["src/signal_vec.rs:FilterMap::poll_vec_change", "src/signal_vec.rs:poll_filter_map"]}
{"id": "C11", "title": "sort_by_cloned yields the stable sort of the source", "statement": "After any number of polls the VecDiffs output by sort_by_cloned are applicable and reconstruct a list that is a permutation of the source contents, sorted by the comparison, and stable (equal elements keep their source order); no internal lookup panics. The only exception: an UpdateAt that changes the sorted position is output as a removal and an insertion in two consecutive polls, and between the two the updated element is missing.", "quantifier": "every comparison that is a total preorder, every source, every number of polls", "why_tests_cant": "the sorted position bookkeeping depends on all earlier diffs; incremental index maintenance errors show only for particular interleavings of inserts, updates and moves", "anchors": ["src/signal_vec.rs:SortByCloned::poll_vec_change", "src/signal_vec.rs:SortByCloned::insert_at", "src/signal_vec.rs:SortByCloned::remove_at", "src/signal_vec.rs:SortByCloned::binary_search"]}
{"id": "C12", "title": "chain mirrors the concatenation of both sources", "statement": "Whenever chain has nothing more to output, the VecDiffs it produced are applicable and reconstruct the left source's contents followed by the right source's contents.", "quantifier": "every pair of sources with every relative timing of their changes and ends", "why_tests_cant": "two independent sources give all interleavings of all diff kinds", "anchors": ["src/signal_vec.rs:Chain::poll_vec_change", "src/signal_vec.rs:Chain::process_left", "src/signal_vec.rs:Chain::process_right", "src/signal_vec.rs:Chain::process_replace", "src/signal_vec.rs:Chain::process_clear"]}
{"id": "C13", "title": "SignalVec flatten mirrors the concatenation of its inner SignalVecs", "statement": "Whenever flatten has nothing more to output, the VecDiffs it produced are applicable and reconstruct the concatenation, in order, of the current contents of the inner SignalVecs currently in the outer one.", "quantifier": "every outer diff history (including removal, update, move and pop of inner SignalVecs) and every behaviour of every inner SignalVec", "why_tests_cant": "unbounded families of inner sources, each with unbounded histories", "anchors": ["src/signal_vec.rs:Flatten::poll_vec_change", "src/signal_vec.rs:FlattenState::poll_pending", "src/signal_vec.rs:FlattenState::poll_values", "src/signal_vec.rs:FlattenState::update_len"]}
{"id": "C14", "title": "map_signal tracks the latest value of every element's signal", "statement": "Whenever map_signal has nothing more to output, the VecDiffs it produced are applicable and reconstruct a list whose i-th element is the most recent value of the signal that the closure returned for the i-th source element.", "quantifier": "every source history and every behaviour of every inner signal", "why_tests_cant": "unbounded families of inner signals changing in any order relative to structural changes", "anchors": ["src/signal_vec.rs:MapSignal::poll_vec_change"]}
{"id": "C15", "title": "filter_signal_cloned keeps exactly the elements whose signal is currently true", "statement": "Whenever filter_signal_cloned has nothing more to output, the VecDiffs it produced are applicable and reconstruct exactly the source elements whose signal's most recent value is true, in source order.", "quantifier": "every source history and every behaviour of every inner boolean signal", "why_tests_cant": "the index translation depends on which of the other elements are currently shown", "anchors": ["src/signal_vec.rs:FilterSignalCloned::poll_vec_change", "src/signal_vec.rs:FilterSignalCloned::find_index"]}
{"id": "C16", "title": "enumerate's index signals always hold the element's current index", "statement": "After any poll of enumerate, the index handle delivered with each element currently in the vec holds Some of that element's current position, and the handles of all removed or replaced-away elements hold None; UpdateAt keeps the element's handle.", "quantifier": "every source history, every position, every handle ever handed out", "why_tests_cant": "each structural change must renumber exactly the right suffix or window for all lengths", "anchors": ["src/signal_vec.rs:Enumerate::poll_vec_change"]}
{"id": "C17", "title": "delay_remove keeps removed elements exactly until their future completes", "statement": "The output always contains every current source element, in source order, plus exactly those removed elements whose removal future has not completed, each staying between its neighbours; the VecDiffs are applicable; a removal future is polled only after its element was removed and never after it completed; the output ends only when the source has ended and nothing is waiting for removal.", "quantifier": "every source history and every completion pattern of the removal futures", "why_tests_cant": "index translation depends on which elements are lingering; futures complete in arbitrary order relative to diffs", "anchors": ["src/signal_vec.rs:DelayRemove::poll_vec_change", "src/signal_vec.rs:DelayRemove::find_index", "src/signal_vec.rs:DelayRemove::should_remove", "src/signal_vec.rs:DelayRemove::remove_existing_futures"]}
{"id": "C18", "title": "to_signal_map / to_signal_cloned always show the current contents", "statement": "Every value output by to_signal_map is the closure applied to the contents reconstructed from all source diffs received so far, and whenever it returns Pending the last value it output is still the closure applied to the current contents.", "quantifier": "every source history and number of polls", "why_tests_cant": "coalescing of arbitrarily many diffs into one output", "anchors": ["src/signal_vec.rs:ToSignalMap::poll_change", "src/signal_vec.rs:ToSignalCloned::poll_change"]}
{"id": "C19", "title": "len always shows the current length", "statement": "Every value output by len is the length of the source contents at that moment, whenever it returns Pending its last output is still the current length, and no length computation under- or overflows.", "quantifier": "every source history and number of polls", "why_tests_cant": "length is tracked incrementally over unboundedly many diffs", "anchors": ["src/signal_vec.rs:Len::poll_change"]}
{"id": "C20", "title": "is_empty shows whether the vec is empty, without repeats, and ends when its source ends", "statement": "Every value output by is_empty tells whether the source contents are empty at that moment, two consecutive outputs differ, whenever it returns Pending the last output is still right, and once the source has ended is_empty ends too instead of staying Pending forever.", "quantifier": "every source history and number of polls", "why_tests_cant": "the combination of 'unchanged' and 'just ended' happens only for particular poll groupings", "anchors": ["src/signal_vec.rs:IsEmpty::poll_change", "src/signal_vec.rs:Len::poll_change"]}
{"id": "C21", "title": "sum always shows the current sum", "statement": "Every value output by sum is the sum of the source contents at that moment, and whenever it returns Pending its last output is still the current sum.", "quantifier": "every source history, for every addition that is associative and commutative", "why_tests_cant": "depends on all diff kinds and coalescing", "anchors": ["src/signal_vec.rs:SumSignal::poll_change"]}
{"id": "C22", "title": "switch_signal_vec mirrors the most recent inner SignalVec", "statement": "Whenever switch_signal_vec has nothing more to output (Pending or ended), the VecDiffs it produced are applicable and reconstruct exactly the current contents of the SignalVec returned by the closure for the most recent value of the outer signal; contents of earlier inner SignalVecs never remain.", "quantifier": "every outer signal history, every behaviour of every inner SignalVec", "why_tests_cant": "the stale contents must be replaced for every relative timing of switch, first diff and end", "anchors": ["src/signal/signal.rs:SwitchSignalVec::poll_vec_change", "src/signal/signal.rs:SwitchSignalVec::new_signal_vec", "src/signal/signal.rs:SwitchSignalVec::calculate_len"]}
{"id": "C23", "title": "SignalVec combinators never lose a wake-up", "statement": "When a SignalVec combinator returns Pending, every source it still depends on that has not ended was polled during that very call and itself answered Pending (so the task's waker is registered with it); and it never returns Pending when all its sources have ended and nothing remains to be waited for.", "quantifier": "every combinator listed, every behaviour of its sources, every number of polls", "why_tests_cant": "a lost wake-up shows only as a hang for a particular grouping of responses", "anchors": ["src/signal_vec.rs:Chain::poll_vec_change", "src/signal_vec.rs:Flatten::poll_vec_change", "src/signal_vec.rs:MapSignal::poll_vec_change", "src/signal_vec.rs:FilterSignalCloned::poll_vec_change", "src/signal_vec.rs:DelayRemove::poll_vec_change", "src/signal_vec.rs:SortByCloned::poll_vec_change", "src/signal_vec.rs:poll_filter_map", "src/signal_vec.rs:IsEmpty::poll_change", "src/signal/signal.rs:SwitchSignalVec::poll_vec_change"]}
{"id": "C24", "title": "A source that has ended is never polled again", "statement": "A combinator never polls a source (signal, signal vec, signal map, stream or future) that has already answered that it ended or completed, provided the consumer itself stops polling the combinator after the combinator ended.", "quantifier": "every combinator, every source behaviour, every number of polls", "why_tests_cant": "needs all groupings of responses around the end of each source", "anchors": ["src/signal/signal.rs:Signal", "src/signal_vec.rs:SignalVec", "src/signal_map.rs:MapWatchKeySignal::poll_change", "src/signal/signal.rs:Flatten", "src/signal/signal.rs:MapFuture", "src/signal/signal.rs:Throttle"]}
{"id": "C25", "title": "MutableBTreeMap subscribers reconstruct the map exactly", "statement": "A signal_map() obtained from a MutableBTreeMap at any moment is lossless: whenever the subscriber has polled everything available, applying the received MapDiffs in order to an empty BTreeMap gives exactly the current contents.", "quantifier": "every initial contents and every finite history of insert, remove, replace, clear interleaved with subscribers created, polled and dropped at any moment", "why_tests_cant": "unbounded histories and join points", "anchors": ["src/signal_map.rs:MutableBTreeState::insert_cloned", "src/signal_map.rs:MutableBTreeState::remove", "src/signal_map.rs:MutableBTreeState::clear", "src/signal_map.rs:MutableBTreeState::replace_cloned", "src/signal_map.rs:MutableBTreeState::signal_map_cloned", "src/signal_map.rs:MutableSignalMap::poll_map_change"]}
{"id": "C26", "title": "MutableBTreeMap operations behave like BTreeMap and no-ops are silent", "statement": "insert returns the previous value and makes the key map to the new one leaving other keys alone, remove returns the value removed, clear empties; removing an absent key and clearing an empty map send nothing; insert sends Insert for a new key and Update for an existing one.", "quantifier": "every map contents and every argument", "why_tests_cant": "universal over maps and keys", "anchors": ["src/signal_map.rs:MutableBTreeState::insert_cloned", "src/signal_map.rs:MutableBTreeState::remove", "src/signal_map.rs:MutableBTreeState::clear"]}
{"id": "C27", "title": "signal_vec_keys mirrors the sorted keys", "statement": "The VecDiffs of signal_vec_keys are applicable and after any number of polls reconstruct the keys of the map in strictly increasing order.", "quantifier": "every well-formed MapDiff history (as a MutableBTreeMap produces) and number of polls", "why_tests_cant": "incremental sorted insertion over unbounded histories", "anchors": ["src/signal_map.rs:MutableBTreeMapKeys::poll_vec_change"]}
{"id": "C28", "title": "entries_cloned mirrors the sorted entries", "statement": "The VecDiffs of entries_cloned are applicable and after any number of polls reconstruct the (key, value) entries of the map in strictly increasing key order.", "quantifier": "every well-formed MapDiff history and number of polls", "why_tests_cant": "incremental sorted insertion over unbounded histories", "anchors": ["src/signal_map.rs:MutableBTreeMapEntries::poll_vec_change"]}
{"id": "C29", "title": "map_value mirrors the map with mapped values", "statement": "The MapDiffs output by map_value reconstruct the source map with the closure applied to each value, the closure being called exactly once per value carried by the source diffs.", "quantifier": "every source map-diff history and number of polls", "why_tests_cant": "all histories", "anchors": ["src/signal_map.rs:MapValue::poll_map_change", "src/signal_map.rs:MapDiff::map"]}
{"id": "C30", "title": "map_value_signal tracks the latest value of every key's signal", "statement": "Whenever map_value_signal has nothing more to output, the MapDiffs it produced reconstruct a map with the same keys as the source, each bound to the most recent value of the signal the closure returned for that key's current value.", "quantifier": "every source history and every behaviour of every inner signal", "why_tests_cant": "unbounded families of inner signals", "anchors": ["src/signal_map.rs:MapValueSignal::poll_map_change"]}
{"id": "C31", "title": "key_cloned shows the current value of its key", "statement": "The first poll of key_cloned outputs a value; every output is the value currently associated with the watched key (or None if absent) after all map diffs received so far; whenever it returns Pending its last output is still right.", "quantifier": "every source map-diff history, every key, every number of polls", "why_tests_cant": "coalescing of arbitrarily many diffs", "anchors": ["src/signal_map.rs:MapWatchKeySignal::poll_change"]}
{"id": "C32", "title": "Signal combinators always have an initial value", "statement": "If the inputs of a Signal combinator answer their first poll with a value, the combinator answers its own first poll with a value.", "quantifier": "every provided combinator (other than those documented to delay, i.e. wait_for), every input behaviour", "why_tests_cant": "the contract must hold for all input behaviours", "anchors": ["src/signal/signal.rs:Signal", "src/internal.rs:MapRef1", "src/signal/signal.rs:Flatten", "src/signal/signal.rs:MapFuture", "src/signal/signal.rs:Throttle", "src/signal/signal.rs:FromStream", "src/signal/signal.rs:FromFuture"]}
{"id": "C33", "title": "Signal combinators always end up showing the function of the latest input value", "statement": "Whenever map, inspect, dedupe, dedupe_cloned, eq, neq, filter_map, map_ref!/map_mut!, and/or/not, option, result return Pending, the last value they output is the corresponding pure function of the most recent value(s) of the input(s) (for filter_map: of the most recent accepted one).", "quantifier": "every input behaviour and number of polls, any number of inputs for map_ref!", "why_tests_cant": "all interleavings of several inputs' changes", "anchors": ["src/signal/signal.rs:Map", "src/signal/signal.rs:Eq", "src/signal/signal.rs:Neq", "src/signal/signal.rs:FilterMap", "src/signal/macros.rs:map_ref", "src/internal.rs:PollResult::merge", "src/internal.rs:MapRef1", "src/signal/signal.rs:OptionSignal", "src/signal/signal.rs:ResultSignal"]}
{"id": "C34", "title": "dedupe, eq and neq never output the same value twice in a row", "statement": "No two consecutive outputs of dedupe, dedupe_cloned, eq or neq are equal, and a change of the (derived) value is never swallowed.", "quantifier": "every input behaviour", "why_tests_cant": "absence of repeats over unbounded histories", "anchors": ["src/signal/signal.rs:dedupe", "src/signal/signal.rs:Dedupe", "src/signal/signal.rs:DedupeCloned", "src/signal/signal.rs:Eq", "src/signal/signal.rs:Neq"]}
{"id": "C35", "title": "dedupe_map compares with the previous input value and keeps showing the function of the latest input", "statement": "dedupe_map calls its closure exactly when the new input value differs from the previously received input value, and whenever it returns Pending the last output is the closure's result for the most recent input value (up to equality).", "quantifier": "every input behaviour and every closure, including closures that modify the value they are given by &mut", "why_tests_cant": "the closure receives &mut of the value later used for comparison; tests use read-only closures", "anchors": ["src/signal/signal.rs:DedupeMap", "src/signal/signal.rs:dedupe"]}
{"id": "C36", "title": "map_ref! outputs one value per poll however many inputs changed, and ends when all inputs ended", "statement": "A single poll of a map_ref!/map_mut! signal polls each live input exactly once and outputs at most one value, computed from the most recent value of every input; it ends exactly when all inputs have ended and nothing changed.", "quantifier": "any number of inputs, every combination of responses", "why_tests_cant": "exponentially many response combinations per poll", "anchors": ["src/signal/macros.rs:map_ref", "src/internal.rs:PollResult::merge", "src/internal.rs:MapRef1::poll"]}
{"id": "C37", "title": "map_future shows the result of the future for the latest input", "statement": "map_future's first output is None or the first future's result; every later output is Some result of the future created for the most recent input value, each delivered once; the future of an outdated input is dropped and its result never shown; while Pending, the latest future is pending or its result was already shown.", "quantifier": "every input behaviour and every completion pattern of the futures", "why_tests_cant": "completion and replacement race in all orders", "anchors": ["src/signal/signal.rs:MapFuture::poll_change"]}
{"id": "C38", "title": "throttle waits for the future between outputs and never gets stuck on an old value", "statement": "Between two outputs of throttle the future created at the first one has completed; each output is the most recent input value; when it returns Pending and no future is outstanding the last output is the input's most recent value.", "quantifier": "every input behaviour and completion pattern", "why_tests_cant": "all orders of completion and change", "anchors": ["src/signal/signal.rs:Throttle::poll_change"]}
{"id": "C39", "title": "flatten / switch show the value of the most recent inner signal", "statement": "Whenever flatten (or switch) returns Pending, its last output is the most recent value of the inner signal most recently produced by the outer signal; it ends only when the outer signal and the current inner signal have ended.", "quantifier": "every outer behaviour, every behaviour of every inner signal", "why_tests_cant": "all orders of outer and inner changes and ends", "anchors": ["src/signal/signal.rs:Flatten::poll_change", "src/signal/signal.rs:Switch::poll_change"]}
{"id": "C40", "title": "stop_if ends right after the first accepted value", "statement": "stop_if outputs exactly the input values up to and including the first one satisfying the predicate and then ends without polling the input again; if no value satisfies it, it ends when the input ends.", "quantifier": "every input behaviour, every predicate", "why_tests_cant": "all positions of the first accepted value and all poll groupings", "anchors": ["src/signal/signal.rs:StopIf::poll_change"]}
{"id": "C41", "title": "from_future, from_stream, first, always, to_future and wait_for deliver exactly the documented values", "statement": "from_future outputs None until the future completes and then Some of its result, once, then ends; from_stream outputs the latest stream item at each poll, starting with None if nothing is available, and ends after the last item was shown; first outputs the first value and ends; always outputs its value once and ends; to_future resolves to the input's last value when it ends; wait_for resolves to the first equal value, or None if the input ends first.", "quantifier": "every input behaviour", "why_tests_cant": "all poll groupings", "anchors": ["src/signal/signal.rs:FromFuture", "src/signal/signal.rs:FromStream", "src/signal/signal.rs:First", "src/signal/signal.rs:Always", "src/signal/signal.rs:SignalFuture", "src/signal/signal.rs:WaitFor"]}
{"id": "C42", "title": "sample_stream_cloned pairs each stream item with the signal's current value", "statement": "sample_stream_cloned outputs one pair per stream item, in order, pairing it with the most recent value of the signal at that moment, and ends with the stream.", "quantifier": "every signal behaviour and every stream behaviour", "why_tests_cant": "all relative timings", "anchors": ["src/signal/signal.rs:SampleStreamCloned::poll_next"]}
{"id": "C43", "title": "Signal combinators never lose a wake-up", "statement": "When a Signal combinator returns Pending, every input it still depends on that has not ended was polled during that call and answered Pending, or else some other outstanding input (the future of throttle) that must make progress first was; and it never returns Pending when all its inputs have ended.", "quantifier": "every combinator, every input behaviour that honours the first-poll contract", "why_tests_cant": "shows only as a hang for particular response groupings", "anchors": ["src/signal/signal.rs:Flatten", "src/signal/signal.rs:MapFuture", "src/signal/signal.rs:Throttle", "src/signal/signal.rs:StopIf", "src/signal/signal.rs:FilterMap", "src/signal/signal.rs:FromStream", "src/internal.rs:MapRef1", "src/signal/macros.rs:map_ref"]}
{"id": "C44", "title": "for_each and to_stream observe every output in order", "statement": "for_each calls its closure with exactly the outputs of the signal (or signal vec / signal map), in order, runs at most one returned future at a time, and completes only when the source has ended and the last returned future has completed.", "quantifier": "every source behaviour and future completion pattern", "why_tests_cant": "all interleavings of source and future progress", "anchors": ["src/signal/signal.rs:ForEach", "src/signal/signal.rs:SignalStream", "src/signal_vec.rs:ForEach", "src/signal_vec.rs:SignalVecStream", "src/signal_map.rs:ForEach"]}
{"id": "C45", "title": "A Mutable's signal never shows a stale value", "statement": "Under any thread interleaving, whenever a signal of a Mutable has no change pending and no operation is in progress, the last value it output is the Mutable's current value; each value it outputs was the Mutable's value at some moment between the start of that poll and its return.", "quantifier": "every interleaving of any number of threads performing set, replace, set_if, lock_mut, clone, drop and of tasks polling any number of signals", "why_tests_cant": "the interleavings of the flag, the lock and the value are too many to test and depend on timing", "anchors": ["src/signal/mutable.rs:MutableSignalState::poll_change", "src/signal/mutable.rs:ChangedWaker", "src/signal/mutable.rs:Mutable::set", "src/signal/mutable.rs:MutableLockMut"]}
{"id": "C46", "title": "A task waiting on a Mutable's signal is woken by every later change and by the last drop", "statement": "If a signal of a Mutable returned Pending to a task, and afterwards (or concurrently with that poll) the Mutable is changed or its last handle is dropped, the task's waker is woken; in particular, when everything is quiescent no task is left asleep with an undelivered change.", "quantifier": "every interleaving of writers, droppers and pollers", "why_tests_cant": "the window between checking the flag and registering the waker is a few instructions wide", "anchors": ["src/signal/mutable.rs:MutableSignalState::poll_change", "src/signal/mutable.rs:ChangedWaker::wake", "src/signal/mutable.rs:ChangedWaker::set_waker", "src/signal/mutable.rs:Mutable::drop"]}
{"id": "C47", "title": "A Mutable's signal ends exactly when all handles are gone, after showing the last value", "statement": "A signal of a Mutable ends only if no Mutable handle is left, and before ending it has output the final value.", "quantifier": "every interleaving and every history of clone, drop, set and poll", "why_tests_cant": "depends on the order of flag, counter and value updates", "anchors": ["src/signal/mutable.rs:MutableSignalState::poll_change", "src/signal/mutable.rs:Mutable::drop", "src/signal/mutable.rs:Mutable::clone", "src/signal/mutable.rs:ReadOnlyMutable::signal_state"]}
{"id": "C48", "title": "Mutable notifies exactly when told to", "statement": "set, replace, replace_with, swap and a lock_mut that was mutably dereferenced mark every live signal as changed; a lock_mut that was only read, set_if / set_neq whose predicate rejects, and get / lock_ref mark none; set_neq never produces two equal consecutive outputs.", "quantifier": "every value, every set of live signals, every operation history", "why_tests_cant": "universal over histories and signal sets", "anchors": ["src/signal/mutable.rs:Mutable::set_if", "src/signal/mutable.rs:Mutable::set_neq", "src/signal/mutable.rs:MutableLockMut::deref_mut", "src/signal/mutable.rs:MutableLockMut::drop", "src/signal/mutable.rs:Mutable::replace_with", "src/signal/mutable.rs:Mutable::swap"]}
{"id": "C49", "title": "Mutable::swap cannot deadlock", "statement": "Concurrent calls of swap (in any argument order, including a Mutable with itself or with a clone of itself) always terminate with the values exchanged.", "quantifier": "every pair of Mutables and every interleaving of concurrent swaps", "why_tests_cant": "lock-order deadlocks depend on timing", "anchors": ["src/signal/mutable.rs:Mutable::swap"]}
{"id": "C50", "title": "channel delivers the latest value and never invents, duplicates or reorders", "statement": "Every value output by a channel Receiver was sent, each sent value is output at most once, outputs appear in send order, and when everything is quiescent and the channel is still open the last value sent was output or is ready to be output.", "quantifier": "every interleaving of any number of Sender clones and the Receiver", "why_tests_cant": "lock-free interleavings", "anchors": ["src/signal/channel.rs:Sender::send", "src/signal/channel.rs:Receiver::poll_change", "src/atomic.rs:AtomicOption"]}
{"id": "C51", "title": "A task waiting on a channel Receiver is woken by every send, close and last drop, and no sent value is lost at the end", "statement": "If the Receiver returned Pending to a task and a value is sent, or the channel is closed or loses its last Sender, during or after that poll, the task is woken; the Receiver ends only after the last value sent was output.", "quantifier": "every interleaving of senders and the receiver", "why_tests_cant": "the race window is a few instructions wide", "anchors": ["src/signal/channel.rs:Receiver::poll_change", "src/signal/channel.rs:Inner::notify", "src/signal/channel.rs:Sender::close", "src/signal/channel.rs:Sender::drop"]}
{"id": "C52", "title": "channel ends exactly when closed or all Senders are dropped", "statement": "After close has been called, or all Senders were dropped, the Receiver ends (once drained) and stays ended, and send fails; before that it does not end; the sender count never under- or overflows.", "quantifier": "every interleaving of clone, drop, close and send by any number of Sender clones", "why_tests_cant": "check-then-act on the counter", "anchors": ["src/signal/channel.rs:Sender::clone", "src/signal/channel.rs:Sender::drop", "src/signal/channel.rs:Sender::close", "src/signal/channel.rs:Inner::remove_sender"]}
{"id": "C53", "title": "Broadcaster delivers every child the latest value, once per change", "statement": "Each signal created from a Broadcaster outputs the most recent value of the input signal; whenever it returns Pending its last output is the input's most recent value; a child outputs at most one value per change of the input; all children agree; a child ends only when the input ended and it has shown the final value; polling by any child is enough to make the others see the change.", "quantifier": "every input behaviour, any number of children created at any time and polled in any order", "why_tests_cant": "all poll orders of all children", "anchors": ["src/signal/broadcaster.rs:BroadcasterState::poll_change", "src/signal/broadcaster.rs:BroadcasterInnerState::poll_signal", "src/signal/broadcaster.rs:BroadcasterSharedState::poll"]}
{"id": "C54", "title": "A task waiting on a Broadcaster child is woken when the input wakes", "statement": "If a child of a Broadcaster returned Pending to a task and the input signal wakes (at any later moment, or while it is being polled), the task is woken.", "quantifier": "every input behaviour including inputs that wake themselves while being polled, every poll order, every interleaving", "why_tests_cant": "the wake may arrive at any instruction of the poll", "anchors": ["src/signal/broadcaster.rs:BroadcasterNotifier::notify", "src/signal/broadcaster.rs:BroadcasterState::poll_change", "src/signal/broadcaster.rs:BroadcasterSharedState::poll"]}
{"id": "C55", "title": "cancelable_future is cancelled promptly and exactly once", "statement": "After the handle is discarded, the future's next poll returns the cancellation value without polling the inner future; before that it returns the inner result; the inner future is dropped on cancellation; discarding wakes a task that is waiting on the future, whatever the interleaving.", "quantifier": "every behaviour of the inner future, every moment of discarding, every interleaving", "why_tests_cant": "the discard may happen at any instruction of the poll", "anchors": ["src/future.rs:CancelableFuture::poll", "src/future.rs:CancelableFutureHandle::discard", "src/future.rs:cancelable_future"]}
{"id": "C56", "title": "AtomicOption never loses, duplicates or leaks a value", "statement": "Under any interleaving of store, take and drop, every value put into the cell is either returned by exactly one take or destroyed exactly once by a store or by dropping the cell; no value is used after it was freed.", "quantifier": "every interleaving of any number of threads", "why_tests_cant": "memory errors in lock-free code depend on timing", "anchors": ["src/atomic.rs:AtomicOption::store", "src/atomic.rs:AtomicOption::take", "src/atomic.rs:AtomicOption::drop"]}
{"id": "C57", "title": "End to end: a for_each on any pipeline over a Mutable ends up at the latest value", "statement": "On a single-threaded executor that polls a task whenever it was woken, once the executor is idle the last value seen by a for_each over a Mutable's signal (through any stack of map/dedupe/map_ref/switch/flatten/broadcaster) is the function of the Mutables' current values.", "quantifier": "every history of set calls and executor steps", "why_tests_cant": "combines wake-ups, coalescing and combinators over unbounded histories", "anchors": ["src/signal/mutable.rs:Mutable", "src/signal/signal.rs:ForEach", "src/signal/signal.rs:SignalExt"]}
{"id": "C58", "title": "End to end: pipelines of SignalVec combinators over a MutableVec", "statement": "Whenever the executor is idle, a for_each over any pipeline of map, filter_map, sort_by_cloned, enumerate and chain built on MutableVecs has received diffs that reconstruct the corresponding function of the current contents.", "quantifier": "every pipeline shape of those combinators and every operation history", "why_tests_cant": "composition over unbounded pipelines and histories", "anchors": ["src/signal_vec.rs:SignalVecExt", "src/signal_vec.rs:MutableVec"]}
{"id": "C59", "title": "MutableVec subscribers are woken by every notification and end exactly after the last handle", "statement": "A subscriber of a MutableVec whose last poll answered Pending is woken as soon as a VecDiff is queued for it or the last MutableVec handle is dropped; a poll returns the queued diffs one by one, then Pending while a handle exists and the end once no handle is left, never before everything was delivered.", "quantifier": "every history of operations, subscriptions, polls, clones and drops", "why_tests_cant": "wake-ups and ends depend on arbitrary interleavings of polls, operations and drops", "anchors": ["src/signal_vec.rs:MutableVecState::notify", "src/signal_vec.rs:MutableSignalVec::poll_vec_change", "src/signal_vec.rs:MutableVec"]}
{"id": "C60", "title": "MutableBTreeMap subscribers are woken by every notification, end exactly after the last handle, and are forgotten once dropped", "statement": "A subscriber of a MutableBTreeMap whose last poll answered Pending is woken as soon as a MapDiff is queued for it or the last handle is dropped; a poll returns the queued diffs one by one, then Pending while a handle exists and the end once no handle is left, never before everything was delivered; after the next change of the contents the map keeps nothing for a dropped subscriber.", "quantifier": "every history of operations, subscriptions, polls, clones and drops", "why_tests_cant": "wake-ups and ends depend on arbitrary interleavings of polls, operations and drops", "anchors": ["src/signal_map.rs:MutableBTreeState::notify", "src/signal_map.rs:MutableSignalMap::poll_map_change", "src/signal_map.rs:MutableBTreeMap"]}
{"id": "C61", "title": "SignalMap combinators and map views never lose a wake-up and end with their sources", "statement": "When map_value, map_value_signal, key_cloned, signal_vec_keys or entries_cloned returns Pending, every source it still depends on that has not ended was polled during that very call and answered Pending; it ends only when all its sources have ended, and never returns Pending once they all have.", "quantifier": "every combinator listed, every behaviour of its sources, every number of polls", "why_tests_cant": "a lost wake-up shows only as a hang for a particular grouping of responses", "anchors": ["src/signal_map.rs:MapValue::poll_map_change", "src/signal_map.rs:MapValueSignal::poll_map_change", "src/signal_map.rs:MapWatchKeySignal::poll_change", "src/signal_map.rs:MutableBTreeMapKeys::poll_vec_change", "src/signal_map.rs:MutableBTreeMapEntries::poll_vec_change"]}
{"id": "C62", "title": "Exactly which VecDiffs each MutableVec operation sends", "statement": "Every operation on a MutableVec that does not panic sends every live subscriber one fixed sequence of VecDiffs that depends only on the operation and the contents (for example removing the last element sends Pop, removing any other position RemoveAt, truncating or draining everything Clear, swapping two elements at most two Moves, operations without effect such as pop, clear or truncate on an empty vec nothing), behind whatever is still queued; these diffs lead from the old contents to the new ones; a new subscriber gets the contents as one Replace, or nothing if they are empty.", "quantifier": "every operation, every contents, every history and set of subscribers", "why_tests_cant": "the diffs depend on the position relative to the length and on the contents, for unboundedly many contents", "anchors": ["src/signal_vec.rs:MutableVecState", "src/signal_vec.rs:MutableVecLockMut"]}
{"id": "C63", "title": "Every call on a Mutable takes effect at one instant between call and return", "statement": "Under any interleaving of threads, each set, replace, replace_with, set_if, set_neq, get, get_cloned and lock_ref that returns has read and written the value in a single step between its call and its return: replace returns exactly the value that its own write overwrote, replace_with stores and returns exactly what its closure made of that value (so no increment is ever lost), set_if passes the closure the old and the new value in this order, after set_neq the value is the given one, get returns a value that was current during the call. Nothing else changes the value; while a lock_ref is held the value does not change, while a lock_mut is held nobody else reads or writes.", "quantifier": "every interleaving of every number of calls, handles, signals and Mutables, every closure", "why_tests_cant": "lost updates and stale return values show only in particular interleavings", "anchors": ["src/signal/mutable.rs:ReadOnlyMutable::get", "src/signal/mutable.rs:ReadOnlyMutable::lock_ref", "src/signal/mutable.rs:Mutable::set", "src/signal/mutable.rs:Mutable::replace", "src/signal/mutable.rs:Mutable::replace_with", "src/signal/mutable.rs:Mutable::set_if", "src/signal/mutable.rs:Mutable::lock_mut"]}
{"id": "C64", "title": "Mutables and Broadcasters forget dropped signals", "statement": "A signal that was dropped is no longer registered with its Mutable once a later set-like call, swap or used lock_mut guard has returned, nor with its Broadcaster once a later wake-up of its input has returned; no signal is ever registered twice; when all handles of a Mutable are dropped it holds none of the signals made before. So the registration lists do not grow beyond the signals created since the last notification and those still alive.", "quantifier": "every interleaving, every number of signals created and dropped at any time", "why_tests_cant": "a leak has no effect on outputs and depends on when signals are dropped relative to notifications", "anchors": ["src/signal/mutable.rs:MutableLockState::notify", "src/signal/mutable.rs:Mutable::drop", "src/signal/broadcaster.rs:BroadcasterNotifier::notify"]}
{"id": "C65", "title": "The closure of a for_each is not called without a reason", "statement": "In a program of Mutables, Broadcasters and for_each tasks on a single-threaded executor, the closure of a for_each is called at most once for the initial value and then at most once per set-like call (or swap) on a Mutable that its pipeline depends on. Spurious wake-ups, clones and drops of handles, other tasks subscribing, being polled or being cancelled, and writes to other Mutables never cause a call.", "quantifier": "every pipeline of map, dedupe, eq/neq, map_ref!, switch/flatten and Broadcasters, every history of calls and polls", "why_tests_cant": "needless calls depend on the history of shared Broadcasters, drops and wake-ups; a test checks a few histories, and tests usually check values and not the number of calls", "anchors": ["src/signal/mutable.rs:MutableSignalState::poll_change", "src/signal/broadcaster.rs:BroadcasterSharedState::poll", "src/signal/signal.rs:ForEach", "src/signal/signal.rs:Flatten", "src/internal.rs:MapRef1"]}
{"id": "C66", "title": "A task is woken only for what it currently depends on", "statement": "In a program of Mutables, Broadcasters and for_each tasks on a single-threaded executor, a call that wakes a sleeping task is a write to, or the drop of the last handle of, a Mutable that the task's pipeline depends on at that moment. For switch and flatten these are the Mutables of the outer signal and of the current inner signal: an inner signal that was replaced is dropped, no longer registered with its Mutables, and writes to them do not wake the task, also through Broadcasters. A task that completed or was cancelled has no live signals registered anywhere.", "quantifier": "every pipeline of map, dedupe, eq/neq, map_ref!, switch/flatten and Broadcasters, every history of calls and polls", "why_tests_cant": "a needless wake-up or a signal kept alive changes no value that the closure sees", "anchors": ["src/signal/signal.rs:Switch", "src/signal/signal.rs:Flatten", "src/signal/mutable.rs:MutableLockState::notify", "src/signal/broadcaster.rs:BroadcasterNotifier::notify"]}
{"id": "C67", "title": "MutableVec and MutableBTreeMap can be shared between threads", "statement": "When any number of threads use handles of one MutableVec or MutableBTreeMap at the same time, in every interleaving: the calls are done in some order, each with the effect and the result it has by itself; the calls made through one lock_mut guard are not mixed with those of other threads; the contents do not change while a lock_ref guard is held. Each subscriber is given, in this order and exactly once, the diffs of all calls after it subscribed, after the contents at that moment; what it was given can be applied at any time, also when it is polled in the middle of a call, and as soon as no call is in progress it makes the contents. A subscriber that was told to wait is woken when there is something for it or when the last handle is gone; it is told that it is over only then, after everything else. A call never waits for a subscriber, and forgets those that were dropped.", "quantifier": "every number of threads, handles and subscribers, every sequence of operations, every interleaving (with polls and drops in the middle of a call)", "why_tests_cant": "the interleavings of threads cannot be enumerated by running the code", "anchors": ["src/signal_vec.rs:MutableVec", "src/signal_vec.rs:MutableVecState::notify", "src/signal_map.rs:MutableBTreeMap", "src/signal_map.rs:MutableBTreeState::notify"]}
{"id": "C68", "title": "The memory orderings of AtomicOption suffice", "statement": "On a machine with release/acquire memory, an AtomicOption that is shared between any number of threads through Arc and Weak has no data race: whoever takes a value out, by swap, store, take or the final drop, has its initialization before it; no value is used or freed twice; the swaps of all threads are in one order in which each takes out what the one before it has put in; the final drop finds the last value, and when it is done every value that was ever put in has left exactly once. With only Acquire or only Release on the swap there are data races.", "quantifier": "every number of threads and calls, every execution that release/acquire memory allows (also stale loads)", "why_tests_cant": "most machines reorder less than the memory model allows, and a data race need not show", "anchors": ["src/atomic.rs:AtomicOption::swap", "src/atomic.rs:AtomicOption::drop"]}
{"id": "C69", "title": "SignalVec combinators pass every element on once and send about as many diffs as they receive", "statement": "map, filter, filter_map, enumerate and debug send at most one VecDiff for each one received, and the elements in the VecDiffs they send are exactly the (accepted, mapped) elements in the VecDiffs received, in the same order: an element that did not change is not sent again. sort_by_cloned and chain send each element received once (or still hold it back), sort_by_cloned with at most two VecDiffs per VecDiff received; delay_remove sends each element once and in order. chain and delay_remove send in total at most as many VecDiffs as they received plus two per element received, also if the contents are replaced or cleared again and again. map_value and the entries of a MutableBTreeMap send one diff per MapDiff received, with exactly its entries; signal_vec_keys sends one per MapDiff that is no Update, with exactly its keys, and none for an Update.", "quantifier": "for all sequences of VecDiffs (valid or not) and Pendings of the sources, all closures, comparison functions and removal futures, and all numbers of polls", "why_tests_cant": "The count is amortised over the whole history: one Replace may cause arbitrarily many diffs, which are paid for by the elements received earlier; a test sees one history.", "anchors": ["src/signal_vec.rs:669-687", "src/signal_vec.rs:690-972", "src/signal_vec.rs:1333-1456", "src/signal_vec.rs:2010-2172", "src/signal_vec.rs:2302-2534", "src/signal_vec.rs:2535-2774"]}
{"id": "C70", "title": "Views of shared contents are never left behind", "statement": "Any number of tasks run for_each over views of one MutableVec or MutableBTreeMap (map, filter, filter_map, sort_by_cloned, debug, to_signal_map, len, is_empty, sum, and Signal map and dedupe on top, in any nesting; map_value, signal_vec_keys, entries_cloned, key_cloned for the map) on an executor with any number of threads, while other threads change the contents, subscribe, cancel and drop, also in the middle of a poll. In every interleaving: a task that sleeps while no call is in progress has shown exactly the view of the present contents; what it was given can be applied at any time, and no view panics; a task completes only when the last handle is gone, after showing the view of the final contents, and does not sleep on when the last handle is gone; from every state the calls and polls in progress come to an end after finitely many steps. For filter and filter_map of a MutableVec this needs that elements are moved forward only (C10); is_empty may miss the end.", "quantifier": "all programs made of these combinators, all closures, initial contents, operations, numbers of tasks and threads, all interleavings of the steps of calls and polls", "why_tests_cant": "a lost wake-up or a missed diff needs a change at one particular moment of a poll, on another thread; tests see a few schedules of a few programs", "anchors": ["src/signal_vec.rs:MutableVec", "src/signal_vec.rs:505-515", "src/signal_map.rs:MutableBTreeMap", "src/signal_map.rs:138-148", "src/signal_vec.rs:1240-1326"]}
{"id": "C71", "title": "Signals built from several shared sources show their current contents", "statement": "A program subscribes to any number of Mutables, MutableVecs, MutableBTreeMaps and Broadcasters, which other threads change, and builds signals from them with any nesting of map, inspect, eq, neq, dedupe, to_signal_vec, map_ref/map_mut, switch/flatten, Broadcaster, SignalVec map, debug, filter, filter_map, sort_by_cloned, chain, map_signal, filter_signal_cloned, flatten, to_signal_map, sum, len, is_empty, switch_signal_vec, map_value, keys, entries, key, map_value_signal. Once such a signal has answered Pending, or has ended, no call is in progress and none of the subscribers has been woken since, the value (or the result of applying all its diffs) is exactly what the program text says of the present contents of all the sources together; and the diffs can be applied at any time. Excepted are the cases which the single combinators get wrong (C10, C12, C13, C15, C22, C23, C46, C47, C54).", "quantifier": "all programs made of these combinators and sources, all closures, all contents and changes, all interleavings of the changes with the polls", "why_tests_cant": "each combinator sees only the answers of its inputs, in an order that depends on when other threads change the sources; the number of programs and schedules is infinite", "anchors": ["src/signal/mutable.rs:MutableSignal", "src/signal/broadcaster.rs:BroadcasterState", "src/signal/signal.rs:Flatten", "src/signal/signal.rs:Switch", "src/signal/macros.rs:map_ref", "src/signal_vec.rs:Chain", "src/signal_vec.rs:MapSignal", "src/signal_vec.rs:FilterSignalCloned", "src/signal_map.rs:MapValueSignal"]}
{"id": "C72", "title": "A Pending answer of a whole pipeline arms every source in use", "statement": "Combinators are nested in any way over any number of sources (all of C71, and not, debug, dedupe_map, Signal filter_map, stop_if, enumerate, map_future, throttle, delay_remove), with signals that appear and disappear at run time (switch, flatten, map_signal, filter_signal_cloned, switch_signal_vec, map_value_signal). Whenever a poll of the outermost signal answers Pending, every source that is in use at that moment, at any depth, was polled during this very poll and answered Pending last, or has ended (or the combinator over it has): so the waker of this poll is registered with each of them, and the next change of any of them wakes the task. for_each waits for the future of its closure, and after that for all these sources. Excepted is chain with an input that empties itself although it is empty (C23).", "quantifier": "all nestings of combinators, all closures, all behaviours of the sources, all states", "why_tests_cant": "a source that is not polled in one particular state of one particular nesting leaves the task asleep for good; tests see a few nestings in a few states", "anchors": ["src/signal/signal.rs:Flatten", "src/signal/signal.rs:Throttle", "src/signal/signal.rs:MapFuture", "src/signal_vec.rs:Chain", "src/signal_vec.rs:MapSignal", "src/signal_vec.rs:FilterSignalCloned", "src/signal_vec.rs:Flatten", "src/signal_vec.rs:DelayRemove", "src/signal_map.rs:MapValueSignal", "src/signal/macros.rs:map_ref"]}
{"id": "C73", "title": "A sleeping task is up to date, whatever its signal is built of", "statement": "A task polls a signal, SignalVec or SignalMap built with any nesting of the combinators of C71 over any number of Mutables, MutableVecs, MutableBTreeMaps and Broadcasters, which other threads change. Its last poll answered Pending. If the task has not been woken since, i.e. no source that holds the waker of that poll has called it, and no call is in progress, then the value (or the result of applying all diffs) is exactly what the program text says of the present contents of all the sources together. With for_each: once the futures that the closure returned are finished, what the closure was called with says the present state. Nothing is assumed about sources that hold another, older waker; there are none in use. Excepted are the cases that the single combinators get wrong, as in C71.", "quantifier": "all nestings of combinators over any number of shared sources, all closures, all contents and changes, all interleavings", "why_tests_cant": "a change that no waker reports leaves the user interface behind for good, and only in some nestings, in some states, under some interleavings", "anchors": ["src/signal/mutable.rs:MutableSignal", "src/signal/broadcaster.rs:BroadcasterState", "src/signal/signal.rs:ForEach", "src/signal/signal.rs:Switch", "src/signal/macros.rs:map_ref", "src/signal_vec.rs:Chain", "src/signal_vec.rs:MapSignal", "src/signal_vec.rs:FilterSignalCloned", "src/signal_map.rs:MapValueSignal"]}
{"id": "C74", "title": "A Mutable survives panics of the code that it calls", "statement": "When a closure (of replace_with, set_if, signal_ref), a Clone or PartialEq implementation, a waker, or the user of a lock_mut or lock_ref guard panics, and the panic is caught or ends one thread only: nobody ever sees a value that a call which panicked has left behind; the panic of a reader changes nothing for anybody else; a signal yields the present value at its next poll, and whoever waits for the Mutable is woken when it changes or when the last handle is dropped; and the program is not aborted.", "quantifier": "any number of signals, handles and threads, all interleavings, a panic at any place where user code is called", "why_tests_cant": "the place of the panic, what was notified before it, and what other threads do in between are without bound; an executor that catches panics goes on with what is left", "anchors": ["src/signal/mutable.rs:Mutable::replace_with", "src/signal/mutable.rs:Mutable::set_if", "src/signal/mutable.rs:MutableLockMut", "src/signal/mutable.rs:MutableLockState::notify", "src/signal/mutable.rs:MutableSignalState::poll_change", "src/signal/mutable.rs:Drop for Mutable"]}
{"id": "C75", "title": "A MutableVec stays in step with its subscribers when a panic is caught while its guard is held", "statement": "If an operation of a MutableVecLockMut panics (bad index, closure of retain, Clone, a waker) and the panic is caught before the guard is dropped, so that the lock is not poisoned and the MutableVec is used on, then the diffs of every live subscriber still give the contents; where they do not, the next replace (or clear of a MutableVec that is not empty) puts every subscriber right for good.", "quantifier": "every history of operations, subscriptions, polls and drops, with a panic in any operation at any place where one can arise", "why_tests_cant": "the disagreement shows only in later diffs, and depends on where in which operation the panic arose and on the number of subscribers", "anchors": ["src/signal_vec.rs:MutableVecState::move_from_to", "src/signal_vec.rs:MutableVecLockMut::swap", "src/signal_vec.rs:MutableVecState::retain", "src/signal_vec.rs:MutableVecState::notify_with", "src/signal_vec.rs:MutableVecState::notify"]}
{"id": "C76", "title": "A Broadcaster survives panics of the code that it calls", "statement": "When the closure (or Clone) of a child, the input signal or a waker panics, and the panic is caught or ends one thread only: whatever the closure of a child is given is the newest value of the input, each value at most once and in order; the library itself does not panic or hang unless user code did; a panic of the closure of one child is the matter of that child alone, and it gets the value again at its next poll; and a waker that panics does not keep the other children from being woken.", "quantifier": "any number of children, all interleavings of polls, notifications, subscriptions and drops, a panic at any place where user code is called", "why_tests_cant": "whether a panic hits one child or all of them depends on which child happened to poll the input first and on what was notified before", "anchors": ["src/signal/broadcaster.rs:BroadcasterNotifier::notify", "src/signal/broadcaster.rs:BroadcasterInnerState::poll_signal", "src/signal/broadcaster.rs:BroadcasterSharedState::poll", "src/signal/broadcaster.rs:BroadcasterState::new", "src/signal/broadcaster.rs:BroadcasterState::poll_change"]}
{"id": "C77", "title": "A MutableBTreeMap stays in step with its subscribers when a panic is caught while its guard is held", "statement": "When a Clone implementation or a waker panics inside an operation of a MutableBTreeMapLockMut and the panic is caught before the guard is dropped, the map can be used on: no later operation panics because of it, the contents stay sorted and without duplicate keys, every subscriber can go on reconstructing the contents from its diffs, and every waiting subscriber is woken.", "quantifier": "any initial contents, any number of subscribers (polled, dropped or not), any sequence of operations with panics at any sender, in the clone or in the waker; any totally ordered key type", "why_tests_cant": "which subscribers lose a diff depends on the order in which they came and on the place of the panic; the consequence (a diff that cannot be applied, or a panic of a combinator downstream) comes any number of operations later, or is repaired by a replace", "anchors": ["src/signal_map.rs:MutableBTreeState::notify", "src/signal_map.rs:MutableBTreeState::notify_clone", "src/signal_map.rs:MutableBTreeState::remove", "src/signal_map.rs:MutableBTreeState::insert", "src/signal_map.rs:MutableBTreeState::insert_cloned"]}
{"id": "C78", "title": "Calls of the library never wait for each other for ever", "statement": "However many threads call the library (reading and writing Mutables, MutableVecs and MutableBTreeMaps, polling their signals and the children of Broadcasters, also of Broadcasters over Broadcasters, waking, subscribing, dropping), no set of calls gets into a state in which each waits for a lock that another of them holds: all of them return, after a bounded number of steps.", "quantifier": "any number of threads, any sequences of calls, any network of Broadcasters, every interleaving, with either policy of RwLock between waiting writers and new readers", "why_tests_cant": "a deadlock needs two threads to be inside two calls at the same instant, and whether a reader waits behind a waiting writer is up to the platform", "anchors": ["src/signal/mutable.rs:ChangedWaker::wake", "src/signal/mutable.rs:ChangedWaker::set_waker", "src/signal/mutable.rs:MutableLockState::notify", "src/signal/mutable.rs:Mutable::swap", "src/signal/mutable.rs:MutableSignalState::poll_change", "src/signal/broadcaster.rs:BroadcasterNotifier::notify", "src/signal/broadcaster.rs:BroadcasterSharedState::poll", "src/future.rs:CancelableFutureHandle::discard"]}
{"id": "C79", "title": "A CancelableFuture keeps its promises when the inner future, the callback or a waker panics", "statement": "When a poll of a CancelableFuture panics because the inner future (its poll or its Drop), the callback or a waker panics, and the future is polled again: the callback is still called at most once, the inner future is dropped at most once and never polled after that; discarding the handle still cancels, wakes the task of the last poll that returned Pending, and panics only if that waker does; a poll after the cancellation never polls the inner future and never returns Pending, and the first one that gets to the callback returns its result; no thread waits for ever.", "quantifier": "every inner future, callback and waker, panicking at any call; every interleaving of polls, the drop of the future and the discard on another thread", "why_tests_cant": "the places of the panics and the interleavings multiply, and that a mutex is poisoned shows only in a discard later on", "anchors": ["src/future.rs:CancelableFuture::poll", "src/future.rs:CancelableFutureHandle::discard", "src/future.rs:cancelable_future"]}
