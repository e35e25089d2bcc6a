{
 "claims": [
  {
   "property": "C01",
   "status": "proved",
   "theorems": [
    "C01_lossless",
    "C01_prefix",
    "C01_catches_up"
   ],
   "note": "All histories of operations, subscriptions, polls, drops and clones; the mpsc channel is modelled by its documentation."
  },
  {
   "property": "C02",
   "status": "proved",
   "theorems": [
    "C02_operations"
   ],
   "note": "All 19 operations of MutableVecLockMut (sort/Extend from iterators are their loops)."
  },
  {
   "property": "C03",
   "status": "proved",
   "theorems": [
    "C03_noop_silent",
    "C03_change_notifies"
   ],
   "note": ""
  },
  {
   "property": "C04",
   "status": "proved",
   "theorems": [
    "C04_panics_silently"
   ],
   "note": "A panicking move_from_to/swap may already have removed the element from the vec; the lock is poisoned then."
  },
  {
   "property": "C05",
   "status": "proved",
   "theorems": [
    "C05_isolation",
    "C05_other_events",
    "C05_forgets_dropped"
   ],
   "note": ""
  },
  {
   "property": "C06",
   "status": "proved",
   "theorems": [
    "C06_replica_contents",
    "C06_replication"
   ],
   "note": ""
  },
  {
   "property": "C07",
   "status": "proved",
   "theorems": [
    "C07_apply_to_vec",
    "C07_apply_to_vec_panics"
   ],
   "note": "Every diff kind, index by index, with the exact panic condition."
  },
  {
   "property": "C08",
   "status": "proved",
   "theorems": [
    "C08_map"
   ],
   "note": ""
  },
  {
   "property": "C09",
   "status": "partial",
   "theorems": [
    "C09_filter_refuted",
    "C09_filter_partial",
    "C09_filter_since_partial"
   ],
   "note": "False for the code: C09_filter_refuted. Proved for all sources whose backward moves of an accepted element start right after an accepted element; C10_filter_map_bad_move shows that any other backward move gives wrong contents. C09_filter_since_partial: on every source, no panic and the exact output; right again from a Replace or Clear on."
  },
  {
   "property": "C10",
   "status": "partial",
   "theorems": [
    "C10_filter_map_refuted",
    "C10_filter_map_partial",
    "C10_filter_map_bad_move",
    "C10_filter_map_since_partial"
   ],
   "note": "False for the code: C10_filter_map_refuted. Same side condition as C09. C10_filter_map_since_partial: on every source, no panic, one call of the closure per value, and the exact output; right again from a Replace or Clear on."
  },
  {
   "property": "C11",
   "status": "proved",
   "theorems": [
    "C11_sort"
   ],
   "note": ""
  },
  {
   "property": "C12",
   "status": "proved",
   "theorems": [
    "C12_C24_chain"
   ],
   "note": ""
  },
  {
   "property": "C13",
   "status": "partial",
   "theorems": [
    "C13_flatten_refuted",
    "C13_flatten_partial",
    "C13_C24_flatten",
    "C13_flatten_poll",
    "C13_flatten_since_partial"
   ],
   "note": "False for the code: C13_flatten_refuted (outer RemoveAt, UpdateAt, Move and Pop leave the items of the inner SignalVec in the output). C13_flatten_poll says for all histories and every poll what the output amounts to. Proved (C13_flatten_since_partial): right from the start, or from the last outer Replace or Clear, as long as inner SignalVecs are removed, overwritten or popped only when empty and moved past empty ones only; for all histories: no panic, applicable output."
  },
  {
   "property": "C14",
   "status": "proved",
   "theorems": [
    "C14_map_signal"
   ],
   "note": "The closure is a function of the value; the value type is arbitrary."
  },
  {
   "property": "C15",
   "status": "partial",
   "theorems": [
    "C15_filter_signal_refuted",
    "C15_filter_signal_partial",
    "C15_C24_filter_signal",
    "C15_filter_signal_poll_partial",
    "C15_filter_signal_moves_partial",
    "C15_filter_signal_bad_move"
   ],
   "note": "False for the code: C15_filter_signal_refuted (wrong order after a backward Move). Proved (C15_filter_signal_moves_partial) as long as, at the moment a backward Move arrives, the signal of the moved element is false or that of the element directly before it is true; C15_filter_signal_bad_move shows that every other backward Move gives wrong contents; for all sources: no panic."
  },
  {
   "property": "C16",
   "status": "proved",
   "theorems": [
    "C16_enumerate"
   ],
   "note": ""
  },
  {
   "property": "C17",
   "status": "proved",
   "theorems": [
    "C17_delay_remove",
    "C17_delay_remove_futures",
    "C17_C24_delay_remove"
   ],
   "note": "The closure is a function of the value; the value type is arbitrary. \"Staying between its neighbours\" is the relation lingered of DelaySpec.v."
  },
  {
   "property": "C18",
   "status": "proved",
   "theorems": [
    "C18_C23_C24_C32_to_signal_map",
    "C18_C23_C24_C32_to_signal_cloned"
   ],
   "note": ""
  },
  {
   "property": "C19",
   "status": "proved",
   "theorems": [
    "C19_C23_C24_C32_len"
   ],
   "note": ""
  },
  {
   "property": "C20",
   "status": "partial",
   "theorems": [
    "C20_C23_is_empty_refuted",
    "C20_C24_C32_is_empty_partial"
   ],
   "note": "False for the code: C20_C23_is_empty_refuted (Pending although the source has ended). Everything else of the claim is proved."
  },
  {
   "property": "C21",
   "status": "proved",
   "theorems": [
    "C21_C23_C24_C32_sum",
    "C21_sum_order"
   ],
   "note": "C21_sum_order shows that independence of the order of the items is needed."
  },
  {
   "property": "C22",
   "status": "partial",
   "theorems": [
    "C22_switch_signal_vec_refuted",
    "C22_switch_signal_vec_partial"
   ],
   "note": "False for the code: C22_switch_signal_vec_refuted (outer signal and newest inner SignalVec end in the same poll: stale contents remain). Proved for every other case, after every poll."
  },
  {
   "property": "C23",
   "status": "partial",
   "theorems": [
    "C23_C24_sort",
    "C23_chain_refuted",
    "C23_chain_left_refuted",
    "C23_chain_partial",
    "C23_C24_simple_vec",
    "C18_C23_C24_C32_to_signal_map",
    "C18_C23_C24_C32_to_signal_cloned",
    "C19_C23_C24_C32_len",
    "C20_C23_is_empty_refuted",
    "C21_C23_C24_C32_sum",
    "C23_vec_rearms",
    "C23_C43_vec_to_signal_rearms",
    "C23_flatten",
    "C23_map_signal",
    "C23_filter_signal",
    "C23_delay_remove",
    "C23_switch_signal_vec"
   ],
   "note": "False for the code: C20_C23_is_empty_refuted and, for chain, the refutation listed here. Proved for all other SignalVec combinators: what each polls before it answers Pending."
  },
  {
   "property": "C24",
   "status": "partial",
   "theorems": [
    "C24_C43_loops",
    "C24_C33_C43_maybe",
    "C24_C32_C33_C36_C43_map_ref",
    "C24_C32_C33_C36_C43_map_mut",
    "C24_C32_C37_C43_map_future",
    "C24_C38_C43_throttle",
    "C24_C39_C43_switch",
    "C24_C40_C43_stop_if",
    "C24_C32_C41_C43_from_future",
    "C24_C32_C41_C43_from_stream",
    "C24_C41_first",
    "C24_C41_C43_wait_for",
    "C24_C41_C43_to_future",
    "C24_C42_sample_stream",
    "C24_C43_C44_for_each",
    "C23_C24_sort",
    "C12_C24_chain",
    "C23_C24_simple_vec",
    "C18_C23_C24_C32_to_signal_map",
    "C18_C23_C24_C32_to_signal_cloned",
    "C19_C23_C24_C32_len",
    "C20_C24_C32_is_empty_partial",
    "C21_C23_C24_C32_sum",
    "C13_C24_flatten",
    "C24_map_signal",
    "C15_C24_filter_signal",
    "C17_C24_delay_remove",
    "C24_switch_signal_vec",
    "C24_C61_map_value_signal_ends",
    "C24_C61_key_cloned_refuted",
    "C24_C61_key_cloned_partial",
    "C24_C61_map_value",
    "C24_C61_keys",
    "C24_C61_entries"
   ],
   "note": "False for key_cloned (C24_C61_key_cloned_refuted). Proved for every other combinator, and for key_cloned with sources that answer their end to a poll of its own."
  },
  {
   "property": "C25",
   "status": "proved",
   "theorems": [
    "C25_spec_apply_to_map",
    "C25_lossless",
    "C25_prefix",
    "C25_catches_up"
   ],
   "note": "Sequential histories: operations of different threads are serialised by the RwLock. Keys: any total order."
  },
  {
   "property": "C26",
   "status": "proved",
   "theorems": [
    "C26_operations",
    "C26_subscribe"
   ],
   "note": "Keys: any total order."
  },
  {
   "property": "C27",
   "status": "proved",
   "theorems": [
    "C27_signal_vec_keys",
    "C27_keys_of_mutable_map"
   ],
   "note": ""
  },
  {
   "property": "C28",
   "status": "proved",
   "theorems": [
    "C28_entries",
    "C28_entries_of_mutable_map"
   ],
   "note": ""
  },
  {
   "property": "C29",
   "status": "proved",
   "theorems": [
    "C29_map_value"
   ],
   "note": ""
  },
  {
   "property": "C30",
   "status": "proved",
   "theorems": [
    "C30_map_value_signal"
   ],
   "note": "A value that an inner signal yields is assumed for the first poll (has_initial); otherwise the code panics."
  },
  {
   "property": "C31",
   "status": "partial",
   "theorems": [
    "C31_key_cloned_refuted",
    "C31_key_cloned_partial",
    "C31_key_of_mutable_map",
    "C31_C32_key_cloned_initial"
   ],
   "note": "False when a Replace repeats the watched key (C31_key_cloned_refuted). Proved for all other sources, in particular for the subscribers of a MutableBTreeMap."
  },
  {
   "property": "C32",
   "status": "partial",
   "theorems": [
    "C32_loops",
    "C24_C32_C33_C36_C43_map_ref",
    "C24_C32_C33_C36_C43_map_mut",
    "C24_C32_C37_C43_map_future",
    "C32_throttle",
    "C32_switch",
    "C24_C32_C41_C43_from_future",
    "C24_C32_C41_C43_from_stream",
    "C18_C23_C24_C32_to_signal_map",
    "C18_C23_C24_C32_to_signal_cloned",
    "C19_C23_C24_C32_len",
    "C20_C24_C32_is_empty_partial",
    "C21_C23_C24_C32_sum",
    "C31_C32_key_cloned_initial",
    "C32_mutable",
    "C32_broadcaster",
    "C32_broadcaster_overlap_refuted"
   ],
   "note": "Proved for every Signal combinator; for children of a Broadcaster when their polls do not overlap; false when they do (C32_broadcaster_overlap_refuted)."
  },
  {
   "property": "C33",
   "status": "proved",
   "theorems": [
    "C33_map",
    "C33_not",
    "C33_inspect",
    "C33_debug",
    "C33_to_signal_vec",
    "C33_C34_eq",
    "C33_C34_neq",
    "C33_C34_dedupe",
    "C33_C34_dedupe_lawful",
    "C33_filter_map",
    "C24_C33_C43_maybe",
    "C24_C32_C33_C36_C43_map_ref",
    "C24_C32_C33_C36_C43_map_mut",
    "C33_C36_map_mut_unmodified",
    "C33_and",
    "C33_or"
   ],
   "note": "option and result are maybe_poll; and/or/not by their definitions."
  },
  {
   "property": "C34",
   "status": "proved",
   "theorems": [
    "C33_C34_eq",
    "C33_C34_neq",
    "C33_C34_dedupe",
    "C33_C34_dedupe_lawful"
   ],
   "note": ""
  },
  {
   "property": "C35",
   "status": "partial",
   "theorems": [
    "C35_dedupe_map_refuted",
    "C35_dedupe_map_stale_refuted",
    "C35_dedupe_map_partial",
    "C35_dedupe_map_lawful_partial"
   ],
   "note": "False for the code: C35_dedupe_map_refuted, C35_dedupe_map_stale_refuted. Proved for closures that do not change what the value compares equal to."
  },
  {
   "property": "C36",
   "status": "proved",
   "theorems": [
    "C24_C32_C33_C36_C43_map_ref",
    "C24_C32_C33_C36_C43_map_mut",
    "C33_C36_map_mut_unmodified"
   ],
   "note": "For map_mut! with a modifying body the values are those the body left, until the input answers again."
  },
  {
   "property": "C37",
   "status": "proved",
   "theorems": [
    "C24_C32_C37_C43_map_future"
   ],
   "note": ""
  },
  {
   "property": "C38",
   "status": "proved",
   "theorems": [
    "C24_C38_C43_throttle"
   ],
   "note": ""
  },
  {
   "property": "C39",
   "status": "proved",
   "theorems": [
    "C24_C39_C43_switch"
   ],
   "note": "switch is flatten of map; the inner signals must honour the first-poll contract."
  },
  {
   "property": "C40",
   "status": "proved",
   "theorems": [
    "C24_C40_C43_stop_if"
   ],
   "note": ""
  },
  {
   "property": "C41",
   "status": "proved",
   "theorems": [
    "C24_C32_C41_C43_from_future",
    "C24_C32_C41_C43_from_stream",
    "C41_always",
    "C24_C41_first",
    "C24_C41_C43_wait_for",
    "C24_C41_C43_to_future",
    "C41_vec_from_stream",
    "C41_vec_always",
    "C41_vec_debug",
    "C41_map_always"
   ],
   "note": ""
  },
  {
   "property": "C42",
   "status": "proved",
   "theorems": [
    "C24_C42_sample_stream"
   ],
   "note": ""
  },
  {
   "property": "C43",
   "status": "proved",
   "theorems": [
    "C24_C43_loops",
    "C24_C33_C43_maybe",
    "C24_C32_C33_C36_C43_map_ref",
    "C24_C32_C33_C36_C43_map_mut",
    "C24_C32_C37_C43_map_future",
    "C24_C38_C43_throttle",
    "C24_C39_C43_switch",
    "C43_switch_needs_contract",
    "C24_C40_C43_stop_if",
    "C24_C32_C41_C43_from_future",
    "C24_C32_C41_C43_from_stream",
    "C24_C41_C43_wait_for",
    "C24_C41_C43_to_future",
    "C24_C43_C44_for_each",
    "C23_C43_vec_to_signal_rearms",
    "C43_signal_rearms",
    "C43_result_option_rearms",
    "C43_map_future_rearms",
    "C43_throttle_rearms",
    "C43_switch_rearms",
    "C43_map_mut_rearms",
    "C43_map_ref_rearms",
    "C43_for_each_rearms"
   ],
   "note": "C43_switch_needs_contract shows that the first-poll contract of the inner signals is needed."
  },
  {
   "property": "C44",
   "status": "proved",
   "theorems": [
    "C24_C43_C44_for_each",
    "C44_to_stream"
   ],
   "note": "futures_util::ForEach is modelled by its source."
  },
  {
   "property": "C45",
   "status": "proved",
   "theorems": [
    "C45_current",
    "C45_next_poll",
    "C45_within_poll"
   ],
   "note": "All interleavings of any number of Mutables, handles, calls and signals."
  },
  {
   "property": "C46",
   "status": "partial",
   "theorems": [
    "C46_woken_refuted",
    "C46_woken_end_refuted",
    "C46_woken_partial",
    "C46_woken_quiet_partial",
    "C46_woken_alone_partial"
   ],
   "note": "Refuted by schedules: a change (or the last drop) between is_changed and set_waker of a poll wakes nobody. Proved for polls into which no notification falls, in particular for polls that are not interleaved with anything."
  },
  {
   "property": "C47",
   "status": "partial",
   "theorems": [
    "C47_ends_only",
    "C47_ends",
    "C47_last_value_refuted",
    "C47_last_value_partial"
   ],
   "note": "Proved: a signal ends only if no handle is left; when no handle is left two polls end it, after the last value. Refuted: a change and the last drop inside one poll skip the last value. Missing from the partial theorem: exactly that."
  },
  {
   "property": "C48",
   "status": "partial",
   "theorems": [
    "C48_log",
    "C48_log_complete",
    "C48_write",
    "C48_swap",
    "C48_guard",
    "C48_silent",
    "C48_guard_silent",
    "C48_reject_silent",
    "C48_set_neq_refuted",
    "C48_set_neq_partial",
    "C48_set_neq_strict"
   ],
   "note": "Which calls mark which signals: proved for all interleavings. The set_neq clause is refuted (the value changes and changes back between polls); proved instead: a repeated output implies a different value in between."
  },
  {
   "property": "C49",
   "status": "partial",
   "theorems": [
    "C49_order_refuted",
    "C49_self_refuted",
    "C49_terminates_partial",
    "C49_single_partial",
    "C49_exchange"
   ],
   "note": "Refuted: opposite order, and a Mutable with itself. Proved: finite and complete schedules when locks are taken in a common order (any rank), in particular for a single swap; a swap that returns has exchanged the values at one instant."
  },
  {
   "property": "C50",
   "status": "proved",
   "theorems": [
    "C50_order",
    "C50_real_time",
    "C50_latest",
    "C50_C52_next_poll",
    "C50_freed"
   ],
   "note": "All interleavings; outputs are a subsequence of the sends in the order they took effect, which respects real time; the last value was output last or is in the cell."
  },
  {
   "property": "C51",
   "status": "partial",
   "theorems": [
    "C51_woken_refuted",
    "C51_woken_end_refuted",
    "C51_end_refuted",
    "C51_woken_partial",
    "C51_woken_soon_partial",
    "C51_end_partial",
    "C51_alone_woken_partial",
    "C51_C52_alone_end_partial"
   ],
   "note": "Refuted: a notify between the poll's checks and its waker.store is lost, and a send plus last drop between value.take and has_senders ends the Receiver without the last value. Proved when no notify (no store) falls into the poll, in particular for single-threaded use."
  },
  {
   "property": "C52",
   "status": "partial",
   "theorems": [
    "C50_C52_next_poll",
    "C52_closed_refuted",
    "C52_all_dropped_refuted",
    "C52_count_partial",
    "C52_end_only_partial",
    "C52_closed_partial",
    "C52_all_dropped_partial",
    "C52_send_partial",
    "C52_alone_count_partial",
    "C51_C52_alone_end_partial"
   ],
   "note": "Refuted: close overlapping a clone reopens the channel; close overlapping a drop makes the counter wrap below 0. Proved for all interleavings without that overlap and fewer than 2^64 Senders, in particular for single-threaded use."
  },
  {
   "property": "C53",
   "status": "proved",
   "theorems": [
    "C53_follows",
    "C53_latest",
    "C53_answer",
    "C53_once",
    "C53_ended",
    "C53_input_end",
    "C53_no_panic",
    "C53_asks",
    "C53_shared",
    "C53_shared_next",
    "C53_progress"
   ],
   "note": "All interleavings of any number of children, the input and its wake-ups. That one child's poll makes the change visible to the others is stated for polls that do not overlap."
  },
  {
   "property": "C54",
   "status": "partial",
   "theorems": [
    "C54_wake_during_poll_refuted",
    "C54_overlap_refuted",
    "C54_woken_partial",
    "C54_woken_alone",
    "C54_later"
   ],
   "note": "False as stated: the wake-up is lost if the input wakes while it is polled, or if two children are polled at the same time (C54_wake_during_poll_refuted, C54_overlap_refuted). Proved: a wake-up that starts after the child returned Pending always wakes the task (every interleaving), and nothing is lost when one thing happens at a time."
  },
  {
   "property": "C55",
   "status": "partial",
   "theorems": [
    "C55_view",
    "C55_transparent",
    "C55_poll_through",
    "C55_cancelled",
    "C55_next_poll",
    "C55_once",
    "C55_no_poll_after_drop",
    "C55_no_panic",
    "C55_discard_finishes",
    "C55_wakes_once",
    "C55_woken_refuted",
    "C55_woken_partial",
    "C55_woken_again_partial"
   ],
   "note": "Everything but the last clause is proved for all interleavings. The wake-up clause is false (C55_woken_refuted: discard during the first inner poll); proved when discard did not fall into the poll, or when the same task had already received a Pending."
  },
  {
   "property": "C56",
   "status": "proved",
   "theorems": [
    "C56_no_use_after_free",
    "C56_accounted",
    "C56_atomic"
   ],
   "note": "All interleavings of any number of swap/store/take calls and the drop of the cell, each heap and pointer access one step."
  },
  {
   "property": "C57",
   "status": "proved",
   "theorems": [
    "C57_latest",
    "C57_settled",
    "C57_values",
    "C57_no_glitch",
    "C57_bounded",
    "C57_progress",
    "C57_idle",
    "C57_no_panic",
    "C57_returns",
    "C57_completes",
    "C57_certain",
    "C57_completed",
    "C57_contents",
    "C57_spawned",
    "C57_broadcaster",
    "C57_seen"
   ],
   "note": "whole programs on a single-threaded executor: any Mutables, Broadcasters, tasks and pipelines, every history; closures of combinators are pure functions (closures of for_each may do anything between polls)"
  },
  {
   "property": "C58",
   "status": "partial",
   "theorems": [
    "C58_latest_partial",
    "C58_asleep_partial",
    "C58_latest_gentle",
    "C58_completed_partial",
    "C58_completes_partial",
    "C58_no_panic_partial",
    "C58_contents",
    "C58_spawn",
    "C58_grows",
    "C58_latest_sound",
    "C58_completed_sound",
    "C58_completes_sound",
    "C58_no_panic_sound",
    "C58_bounded",
    "C58_progress",
    "C58_idle",
    "C58_settles_sound",
    "C58_filter_map_refuted",
    "C58_chain_refuted",
    "C58_chain_empty_refuted"
   ],
   "note": "For every pipeline of map, filter, filter_map, sort_by_cloned, enumerate, debug and chain over MutableVecs and every history of one call or poll at a time: a for_each that is asleep (in particular when the executor is idle) has received diffs that reconstruct the function of the current contents; it completes exactly when its MutableVecs are gone; it does not panic. Every poll ends, and the executor becomes idle after boundedly many moves. No side condition for pipelines without filter, filter_map and chain. With them: only if the backward moves that arrive at a filter are harmless and the inputs of a chain never empty what is empty; refuted otherwise (three witnesses). These hold if the program moves nothing backwards beneath filters, never replaces nothing by nothing beneath chains, and has no filter beneath a chain (_sound theorems)."
  },
  {
   "property": "C59",
   "status": "proved",
   "theorems": [
    "C59_wakes",
    "C59_polls",
    "C59_handles"
   ],
   "note": "Sequential histories: operations of different threads are serialised by the RwLock."
  },
  {
   "property": "C60",
   "status": "proved",
   "theorems": [
    "C60_woken",
    "C60_polls",
    "C60_forgets",
    "C60_handles"
   ],
   "note": ""
  },
  {
   "property": "C61",
   "status": "partial",
   "theorems": [
    "C24_C61_map_value_signal_ends",
    "C61_map_value_signal_wakes",
    "C24_C61_key_cloned_refuted",
    "C24_C61_key_cloned_partial",
    "C61_key_cloned_rearms",
    "C61_key_cloned_end",
    "C24_C61_map_value",
    "C24_C61_keys",
    "C24_C61_entries",
    "C61_rearms"
   ],
   "note": "False for key_cloned: C24_C61_key_cloned_refuted shows it waiting for ever on an ended source. Proved for the others, and for key_cloned with sources that answer their end to a poll of its own."
  },
  {
   "property": "C62",
   "status": "proved",
   "theorems": [
    "C62_sends",
    "C62_leads",
    "C62_first"
   ],
   "note": "every operation, contents, history and set of subscribers; operations as calls on the lock, one at a time"
  },
  {
   "property": "C63",
   "status": "proved",
   "theorems": [
    "C63_write",
    "C63_set",
    "C63_replace",
    "C63_replace_with",
    "C63_set_if",
    "C63_set_neq",
    "C63_read",
    "C63_only",
    "C63_hold",
    "C63_guard",
    "C63_guard_alone"
   ],
   "note": "at_once: the calls' steps, in every interleaving; panicking closures are not modelled"
  },
  {
   "property": "C64",
   "status": "proved",
   "theorems": [
    "C64_write",
    "C64_swap",
    "C64_guard",
    "C64_drop",
    "C64_once",
    "C64_broadcaster",
    "C64_broadcaster_once"
   ],
   "note": "set-like calls, swap, guard, last drop, Broadcaster; every interleaving"
  },
  {
   "property": "C65",
   "status": "proved",
   "theorems": [
    "C65_spawned",
    "C65_calls",
    "C65_settled",
    "C65_no_call"
   ],
   "note": "Same whole-program model as C57 (one call at a time). The Mutables a pipeline depends on: those that occur in it, in the Broadcasters it uses, and in any pipeline that the closure of a switch can make."
  },
  {
   "property": "C66",
   "status": "proved",
   "theorems": [
    "C66_wakes",
    "C66_registered",
    "C66_ended"
   ],
   "note": "wake-ups, registrations and ended tasks, for every program of the model of C57"
  },
  {
   "property": "C67",
   "status": "proved",
   "theorems": [
    "C67_vec_order",
    "C67_map_order",
    "C67_vec_calls",
    "C67_map_calls",
    "C67_vec_quiet",
    "C67_map_quiet",
    "C67_vec_wakes",
    "C67_map_wakes",
    "C67_vec_ends",
    "C67_map_ends",
    "C67_vec_guard",
    "C67_map_guard",
    "C67_vec_guard_ref",
    "C67_map_guard_ref",
    "C67_vec_progress",
    "C67_map_progress",
    "C67_vec_forgets",
    "C67_map_forgets",
    "C67_handles",
    "C67_map_handles"
   ],
   "note": "every interleaving of threads, one send at a time; channel and RwLock are taken as linearizable"
  },
  {
   "property": "C68",
   "status": "proved",
   "theorems": [
    "C68_no_race",
    "C68_order",
    "C68_end"
   ],
   "note": "for the orderings in the code; the ordering of the load in drop does not matter"
  },
  {
   "property": "C69",
   "status": "proved",
   "theorems": [
    "C69_map",
    "C69_filter",
    "C69_filter_map",
    "C69_enumerate",
    "C69_debug",
    "C69_sort",
    "C69_chain",
    "C69_delay_remove",
    "C69_map_value",
    "C69_keys",
    "C69_entries"
   ],
   "note": ""
  },
  {
   "property": "C70",
   "status": "proved",
   "theorems": [
    "C70_vec_list_shows",
    "C70_vec_value_shows",
    "C70_filter_shows_refuted",
    "C70_vec_list_safe",
    "C70_vec_value_safe",
    "C70_vec_list_ends",
    "C70_vec_value_ends",
    "C70_is_empty_ends_refuted",
    "C70_vec_settles",
    "C70_map_entries",
    "C70_map_list",
    "C70_map_value",
    "C70_map_settles",
    "C70_handles"
   ],
   "note": "Views.v: every interleaving of the steps of calls, sends, drops and polls of chains of combinators; the exceptions named in the statement are proved to be needed (C70_filter_shows_refuted, C70_is_empty_ends_refuted). Not in the chains: chain, flatten, map_signal, filter_signal_cloned, delay_remove, enumerate (they have more than one source)."
  },
  {
   "property": "C71",
   "status": "proved",
   "theorems": [
    "C71_shows",
    "C71_no_panic",
    "C71_no_panic_map_ref",
    "C71_no_panic_switch",
    "C71_no_panic_chain",
    "C71_no_panic_map_signal",
    "C71_no_panic_filter_signal",
    "C71_no_panic_flatten",
    "C71_no_panic_switch_vec",
    "C71_no_panic_map_value_signal"
   ],
   "note": "for every program built from the listed sources and combinators; cases which single combinators get wrong (refuted elsewhere) are excluded by premises of the rules"
  },
  {
   "property": "C72",
   "status": "proved",
   "theorems": [
    "C72_waits",
    "C72_for_each"
   ],
   "note": "for every nesting of the listed combinators; chain under the condition of C23_chain_partial, which is needed (C23_chain_refuted)"
  },
  {
   "property": "C73",
   "status": "proved",
   "theorems": [
    "C73_rests",
    "C73_for_each"
   ],
   "note": "for_each included; the exceptions are those of C71, as premises of the rules"
  },
  {
   "property": "C74",
   "status": "partial",
   "theorems": [
    "C74_sees",
    "C74_signals_see",
    "C74_poisoned",
    "C74_calls",
    "C74_closure",
    "C74_panics",
    "C74_reader",
    "C74_current_partial",
    "C74_woken_partial",
    "C74_no_abort_partial",
    "C74_race_refuted",
    "C74_callback_refuted",
    "C74_asleep_refuted",
    "C74_waker_refuted",
    "C74_abort_refuted"
   ],
   "note": "False for the code in four respects: C74_callback_refuted, C74_race_refuted (as C45), C74_asleep_refuted (with C74_waker_refuted), C74_abort_refuted. Proved: nobody sees what a call that panicked has left; only panics after the lock is poisoned; readers that panic change nothing for others; signals which did not panic are up to date as long as no writer panicked; a signal that waits is woken by a change and by the last drop if no notification comes in the middle of a poll; only writers that panic poison the lock, and then every call panics and none hangs; no abort unless a thread was panicking already."
  },
  {
   "property": "C75",
   "status": "partial",
   "theorems": [
    "C75_in_step_partial",
    "C75_harm",
    "C75_loses",
    "C75_retain",
    "C75_stop",
    "C75_back",
    "C75_clear_refuted",
    "C75_move_refuted",
    "C75_retain_refuted",
    "C75_clone_refuted",
    "C75_waker_refuted"
   ],
   "note": "False for the code: C75_move_refuted, C75_retain_refuted, C75_clone_refuted, C75_waker_refuted. Proved: everything stays in step unless one of exactly these things happens, what each of them leaves, and that the next replace or clear of a vec that is not empty puts every subscriber right (C75_back)."
  },
  {
   "property": "C76",
   "status": "partial",
   "theorems": [
    "C76_latest",
    "C76_once",
    "C76_asks",
    "C76_poisons",
    "C76_poisons_only",
    "C76_poisoned",
    "C76_alone_partial",
    "C76_next",
    "C76_woken_partial",
    "C76_wakers",
    "C76_wakers_only",
    "C76_sibling_refuted",
    "C76_lost_refuted",
    "C76_unwoken_refuted"
   ],
   "note": "False for the code in three respects: C76_sibling_refuted, C76_lost_refuted, C76_unwoken_refuted. Proved: what closures are given is the newest value of the input, each once; exactly what poisons either lock, and that afterwards everything panics and nothing hangs; a child that did not poll the input changes nothing for others; if no waker panics, all that wait are woken."
  },
  {
   "property": "C77",
   "status": "partial",
   "theorems": [
    "C77_in_step_partial",
    "C77_calm",
    "C77_stop",
    "C77_clone_refuted",
    "C77_remove_refuted",
    "C77_waker_refuted"
   ],
   "note": "Subscribers which a panic has passed over can be out of step until the next Replace or Clear; refuted for them (C77_clone_refuted, C77_remove_refuted), as is the waking (C77_waker_refuted)."
  },
  {
   "property": "C78",
   "status": "partial",
   "theorems": [
    "C78_finishes_partial",
    "C78_never_stuck_partial",
    "C78_bounded",
    "C78_guards_partial",
    "C78_exclusive",
    "C78_readers",
    "C78_children",
    "C78_swap_refuted",
    "C78_inline_refuted",
    "C78_inline_child_refuted",
    "C78_closure_refuted",
    "C78_reread_refuted",
    "C78_reads_refuted",
    "C78_old_waker_refuted",
    "C78_poll_refuted",
    "C78_cycle_refuted"
   ],
   "note": "Needs a common order of the Mutables that threads and user code under locks take, executors that do not poll inside wake, and Broadcasters without cycles; refuted without (C78_*_refuted). Only locks are modelled, not the internals of std locks."
  },
  {
   "property": "C79",
   "status": "partial",
   "theorems": [
    "C79_once",
    "C79_through",
    "C79_cancelled",
    "C79_next_poll",
    "C79_gone",
    "C79_discard_partial",
    "C79_wakes_partial",
    "C79_live",
    "C79_bounded",
    "C79_discard_refuted",
    "C79_again_refuted"
   ],
   "note": "False for the code when the Drop of a waker panics in the slot (C79_discard_refuted); proved without that. A callback that panicked is not called again (C79_again_refuted)."
  }
 ]
}
