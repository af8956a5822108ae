{
 "claims": [
  {
   "property": "C01",
   "status": "proved",
   "theorems": [
    "C01_grammar"
   ],
   "note": "Every pipeline of the modelled synchronous operators (also with into_result), every call history."
  },
  {
   "property": "C02",
   "status": "proved",
   "theorems": [
    "C02_closed_absorbing",
    "C02_unsubscribe_no_effect",
    "C02_add_runs_at_once"
   ],
   "note": "Pipelines without into_result (see C13)."
  },
  {
   "property": "C03",
   "status": "proved",
   "theorems": [
    "C03_teardowns_once_in_order",
    "C03_notification_before_teardowns"
   ],
   "note": "Pipelines without into_result (see C13). Teardown callbacks are modelled by their ids; a panicking teardown is not modelled."
  },
  {
   "property": "C04",
   "status": "proved",
   "theorems": [
    "C04_terminal_closes"
   ],
   "note": "Pipelines without into_result (see C13)."
  },
  {
   "property": "C05",
   "status": "proved",
   "theorems": [
    "C05_drop_releases"
   ],
   "note": "Pipelines without into_result (see C13)."
  },
  {
   "property": "C06",
   "status": "proved",
   "theorems": [
    "C06_map",
    "C06_filter",
    "C06_filter_map",
    "C06_map_into",
    "C06_map_error",
    "C06_enumerate",
    "C06_identity_tap",
    "C06_lift_option",
    "C06_tap_next_callback",
    "C06_tap_callback"
   ],
   "note": ""
  },
  {
   "property": "C07",
   "status": "proved",
   "theorems": [
    "C07_take",
    "C07_skip",
    "C07_first",
    "C07_find",
    "C07_find_index",
    "C07_element_at",
    "C07_is_empty"
   ],
   "note": ""
  },
  {
   "property": "C08",
   "status": "proved",
   "theorems": [
    "C08_scan",
    "C08_reduce",
    "C08_count",
    "C08_pairwise",
    "C08_buffer_count"
   ],
   "note": ""
  },
  {
   "property": "C09",
   "status": "proved",
   "theorems": [
    "C09_start_with",
    "C09_end_with",
    "C09_on_subscribe"
   ],
   "note": ""
  },
  {
   "property": "C10",
   "status": "proved",
   "theorems": [
    "C10_dematerialize_materialize",
    "C10_materialize",
    "C10_dematerialize_ends",
    "C10_lift_into_result"
   ],
   "note": ""
  },
  {
   "property": "C11",
   "status": "proved",
   "theorems": [
    "C11_pipeline_composes",
    "C11_composite"
   ],
   "note": "Closed form of the observer's view for every history, also with calls after the terminal one."
  },
  {
   "property": "C12",
   "status": "proved",
   "theorems": [
    "C12_closed_with_downstream",
    "C12_then_silent"
   ],
   "note": "For every downstream; the silence part for downstreams that keep the contracts (record lawful)."
  },
  {
   "property": "C13",
   "status": "partial",
   "theorems": [
    "C13_into_result_closes_refuted",
    "C13_into_result_partial",
    "C13_closed_but_emitting_refuted"
   ],
   "note": "False of the code: error() on into_result only pushes a value (into_result_subscriber.rs:43-55). Refuted with a witness; the _partial theorem says what it does deliver."
  },
  {
   "property": "C14",
   "status": "proved",
   "theorems": [
    "C14_cascade_delivered",
    "C14_only_cascades",
    "C14_closes_once",
    "C14_silent_when_closed",
    "C14_terminal",
    "C14_unsubscribe"
   ],
   "note": "Destinations are arbitrary reacting state machines; the destination does not inspect is_closed of the shared subscriber or add teardowns to it while locked (the latter would deadlock). The panic exactly at ten non-empty generations is shown in the examples."
  },
  {
   "property": "C15",
   "status": "partial",
   "theorems": [
    "C15_thread_order",
    "C15_nothing_lost_partial",
    "C15_flushed_by_next_call_partial",
    "C15_stranded_refuted",
    "C15_depth_panic_refuted"
   ],
   "note": "False as stated: two schedules refute it (a stranded value; the depth panic). Proved for all programs and interleavings: per-thread order without loss or duplication, everything not delivered is in the queue, and one undisturbed call flushes it. Missing: delivery by the time all calls have returned, which does not hold."
  },
  {
   "property": "C16",
   "status": "proved",
   "theorems": [
    "C16_exact_delivery",
    "C16_nobody_else",
    "C16_iteration_order",
    "C16_others_unaffected"
   ],
   "note": "Publish subject, all iteration orders, subscribers that may close themselves at any value but do not call the subject from inside (those are C18)."
  },
  {
   "property": "C17",
   "status": "partial",
   "theorems": [
    "C17_late",
    "C17_reentrant_refuted"
   ],
   "note": "Also with subscribers that call the subject, except from teardowns. A late subscriber whose error/complete callback calls the subject deadlocks (refuted part, outside the statement)."
  },
  {
   "property": "C18",
   "status": "partial",
   "theorems": [
    "C18_one_order_partial",
    "C18_agree_partial",
    "C18_stranded_refuted",
    "C18_depth_refuted"
   ],
   "note": "Proved for all reactions other than calls made by teardowns, for every execution that ends neither in the depth panic nor in the deadlock. Both exceptions are shown real by _refuted theorems: a value pushed by a teardown during subscription.unsubscribe() stays queued; ten generations panic."
  },
  {
   "property": "C19",
   "status": "proved",
   "theorems": [
    "C19_behavior",
    "C19_behavior_reentrant"
   ],
   "note": "Also with re-entrant calls (calls from teardowns and calls made by a subscriber while it is given the stored value are excluded)."
  },
  {
   "property": "C20",
   "status": "proved",
   "theorems": [
    "C20_replay",
    "C20_last_values",
    "C20_replay_reentrant"
   ],
   "note": "As C19. The ring buffer crate is not part of the repository and is modelled as a list of at most n values."
  },
  {
   "property": "C21",
   "status": "partial",
   "theorems": [
    "C21_async_partial",
    "C21_async_reentrant_partial",
    "C21_unsubscribed_refuted",
    "C21_late_value_refuted",
    "C21_value_twice_refuted",
    "C21_value_then_error_refuted",
    "C21_missed_value_refuted"
   ],
   "note": "The exact behaviour for all reducers and histories: C21_async_partial for subscribers that do not call back (no condition on the run), C21_async_reentrant_partial for subscribers that call the subject while being told something (not from a teardown), where a completion is two steps and what is called in between comes in between. The statement is false: late subscribers of a subject unsubscribed without completion still get the value; a value pushed after completion changes what late subscribers get; a subscriber calling back on the value can have the value delivered twice, followed by an error, or missed by a newcomer (all refuted)."
  },
  {
   "property": "C22",
   "status": "proved",
   "theorems": [
    "C22_only_by_provenance",
    "C22_replay_then_by_provenance",
    "C22_all"
   ],
   "note": "The three views as pipelines of the modelled filter and map operators fed with what the behavior subject delivers."
  },
  {
   "property": "C23",
   "status": "proved",
   "theorems": [
    "C23_at_most_once",
    "C23_when_due",
    "C23_exactly_once",
    "C23_cancelled",
    "C23_immediate"
   ],
   "note": "All histories, all closures. Due time counts from the time the executor took the request over (its latest tick), as in the code. Cancellation takes effect when the executor drains it."
  },
  {
   "property": "C24",
   "status": "partial",
   "theorems": [
    "C24_fires",
    "C24_floor",
    "C24_never_early",
    "C24_cap",
    "C24_terminates",
    "C24_zero_refuted"
   ],
   "note": "Exact count for positive intervals; the zero-interval clause is false: a task that is not done loops forever inside one tick (ticked_work_repeating.rs:81-100), refuted for every such closure."
  },
  {
   "property": "C25",
   "status": "proved",
   "theorems": [
    "C25_once_each",
    "C25_numbered_in_order",
    "C25_finished"
   ],
   "note": "All closures (which may schedule, cancel and invoke from inside a tick), all histories that do not panic at the depth limit."
  },
  {
   "property": "C26",
   "status": "partial",
   "theorems": [
    "C26_cancel_refuted",
    "C26_invocations_partial"
   ],
   "note": "False of the code: CancelInvoked keeps the cancelled id and drops all others (ticking_executor.rs, retain with ==). Refuted; the _partial theorem: without cancellations every invocation is made once, in order."
  },
  {
   "property": "C27",
   "status": "partial",
   "theorems": [
    "C27_now",
    "C27_deltas_partial",
    "C27_past_refuted"
   ],
   "note": "The clock itself never decreases (C27_now). Closures are handed the raw tick, so ticking to a past time shows them that time: refuted. Proved for ticking by deltas. Missing: tick_to with a time in the past, where it is false."
  },
  {
   "property": "C28",
   "status": "proved",
   "theorems": [
    "C28_delay",
    "C28_same_values"
   ],
   "note": "All histories, also with other tasks on the scheduler that push and complete, and destinations that close themselves. The destination does not call back into the operator."
  },
  {
   "property": "C29",
   "status": "partial",
   "theorems": [
    "C29_debounce_partial",
    "C29_flush_refuted"
   ],
   "note": "Proved if values are not pushed by tasks of the same scheduler; refuted otherwise (a value pushed in the tick that delivers the previous one is lost by a completion: the counter is reset to 0, debounce_time_subscriber.rs:88). Missing: pushes from within ticks, where it is false."
  },
  {
   "property": "C30",
   "status": "partial",
   "theorems": [
    "C30_throttle_partial",
    "C30_rate_refuted",
    "C30_trailing_refuted",
    "C30_last_value_refuted",
    "C30_order_refuted"
   ],
   "note": "False of the code in all three parts, each refuted with a run (rate after idle time, trailing value lost, order). The _partial theorem says what does hold. Missing: rate, trailing value and order, which are false."
  },
  {
   "property": "C31",
   "status": "proved",
   "theorems": [
    "C31_observe_on",
    "C31_same_values"
   ],
   "note": "All histories; a value pushed inside a tick by another task is delivered in that same tick."
  },
  {
   "property": "C32",
   "status": "partial",
   "theorems": [
    "C32_fallback_partial",
    "C32_last_value_refuted"
   ],
   "note": "Proved except the last clause, which is false (a value followed by completion before the next tick is lost), refuted."
  },
  {
   "property": "C33",
   "status": "partial",
   "theorems": [
    "C33_interval",
    "C33_interval_counts",
    "C33_interval_floor",
    "C33_timer",
    "C33_iterator_on_tick_partial",
    "C33_iterator_items",
    "C33_iterator_empty_silent",
    "C33_iterator_empty_refuted",
    "C33_iterator_one_refuted"
   ],
   "note": "interval and timer proved in full. iterator_on_tick: proved except completion for an empty iterator, and for a one-item iterator with start_on_subscribe, which are false (refuted). Fused iterators; every_nth_frame 0 (no scheduler) is not included."
  },
  {
   "property": "C34",
   "status": "partial",
   "theorems": [
    "C34_limit",
    "C34_once",
    "C34_order",
    "C34_prompt",
    "C34_relays",
    "C34_concat",
    "C34_passed_on",
    "C34_unsubscribed",
    "C34_order_refuted"
   ],
   "note": "Limit, once, passing on and unsubscription for all histories; order, promptness, concatenation and completion if no inner observable unsubscribes without completing. False otherwise: those that wait are then forgotten and overtaken (refuted)."
  },
  {
   "property": "C35",
   "status": "partial",
   "theorems": [
    "C35_heard",
    "C35_once",
    "C35_alone",
    "C35_taken",
    "C35_relays",
    "C35_completes",
    "C35_completes_refuted"
   ],
   "note": "Completion is proved if no inner observable unsubscribes without completing, and depends on the order of events otherwise (refuted); the rest holds for all histories."
  },
  {
   "property": "C36",
   "status": "partial",
   "theorems": [
    "C36_idle",
    "C36_taken",
    "C36_relays",
    "C36_completes",
    "C36_completes_refuted"
   ],
   "note": "As C35. That it is closed once the downstream closes is false (C50)."
  },
  {
   "property": "C37",
   "status": "partial",
   "theorems": [
    "C37_catch",
    "C37_grammar",
    "C37_values",
    "C37_throw_refuted",
    "C37_closed_refuted"
   ],
   "note": "Proved exactly what the destination is told, for every destination and every interleaving. False: the replacement of a synchronous source's error (throw) is cut off by the source's own unsubscription, and is_closed stays false when the destination closed itself (refuted)."
  },
  {
   "property": "C38",
   "status": "partial",
   "theorems": [
    "C38_sync",
    "C38_one_by_one",
    "C38_attempts",
    "C38_attempts_all",
    "C38_passes_on",
    "C38_relays",
    "C38_goes_on",
    "C38_gives_up",
    "C38_obeys",
    "C38_ends",
    "C38_released",
    "C38_attempts_refuted",
    "C38_alone_refuted",
    "C38_alone_later_refuted",
    "C38_error_refuted"
   ],
   "note": "Exact for synchronous sources; attempts one by one, passing on, giving up, release and unsubscription for all sources and histories. False: an attempt that fails late leads to n+2 attempts and to an error that is not the last; the last attempt is unsubscribed if it is still running when subscribed to, so retry(0) silences every asynchronous source (refuted)."
  },
  {
   "property": "C39",
   "status": "partial",
   "theorems": [
    "C39_zip",
    "C39_zip_by_index",
    "C39_zip_pairs",
    "C39_ends_at_once_refuted",
    "C39_overflow_refuted"
   ],
   "note": "Proved exactly what zip tells its destination, with and without overflow, for every destination. False: it does not end when one source is exhausted while the other has values left over, not even after both completed; overflow shifts the pairing (refuted)."
  },
  {
   "property": "C40",
   "status": "partial",
   "theorems": [
    "C40_combine_latest",
    "C40_completes_refuted",
    "C40_ends_at_once_refuted"
   ],
   "note": "Proved exactly what combine_latest tells its destination. False: a source that completes empty before the other emitted only unsubscribes it; one that unsubscribes empty after the other emitted leaves it open (refuted)."
  },
  {
   "property": "C41",
   "status": "partial",
   "theorems": [
    "C41_combine_changes",
    "C41_join",
    "C41_with_latest_from",
    "C41_with_latest_ends_refuted"
   ],
   "note": "Proved exactly what the three tell their destination. False as to ending at once: with_latest_from stays open when the inner observable unsubscribes without a value (refuted)."
  },
  {
   "property": "C42",
   "status": "partial",
   "theorems": [
    "C42_one",
    "C42_heard",
    "C42_connect",
    "C42_share",
    "C42_joins",
    "C42_shared",
    "C42_tells",
    "C42_leaves",
    "C42_quits",
    "C42_same",
    "C42_fresh",
    "C42_ends",
    "C42_disconnect",
    "C42_dropped_partial",
    "C42_dropped_refuted",
    "C42_dropped_sync_refuted",
    "C42_dropped_former_refuted",
    "C42_again_refuted"
   ],
   "note": "For all options, histories, sources and orders of telling: one subscription to the source at a time, everything told to all present and nobody else, ended only by the user or the last to leave, connectors kept and replaced as the options say. Ended when the last subscriber leaves only if connect has returned and the source never completed or failed (partial); false otherwise (refuted): has_completed stays set after the connector was replaced, a subscriber who leaves during connect is not counted off for the connection being made, and subscribers of a former connector keep a new connection alive."
  },
  {
   "property": "C43",
   "status": "partial",
   "theorems": [
    "C43_bounded_partial",
    "C43_kept_partial",
    "C43_capacity_zero_refuted",
    "C43_dropped_completion_refuted",
    "C43_pop_after_error_refuted"
   ],
   "note": "Proved for sources that keep the observer contract, capacity above 0 and no pop after an error. False otherwise: three witnesses (capacity 0 holds a value; a value pushed after the completion drops the completion; popping after an error hits a debug assertion)."
  },
  {
   "property": "C44",
   "status": "proved",
   "theorems": [
    "C44_flags",
    "C44_compound",
    "C44_matches",
    "C44_guards",
    "C44_predicted"
   ],
   "note": "All histories of notifications and unsubscribe_if_not_already; the debug assertions are explicit panics, and the accepted histories are characterised."
  },
  {
   "property": "C45",
   "status": "proved",
   "theorems": [
    "C45_lossless",
    "C45_cover",
    "C45_replay",
    "C45_push"
   ],
   "note": "All four notification types and their conversions; push for any subscriber, as four arbitrary methods on a state."
  },
  {
   "property": "C46",
   "status": "partial",
   "theorems": [
    "C46_active_partial",
    "C46_release_partial",
    "C46_idle",
    "C46_order",
    "C46_flags_any_envelope",
    "C46_transitions_partial",
    "C46_triggers",
    "C46_told",
    "C46_restart_refuted",
    "C46_fire_refuted",
    "C46_start_refuted",
    "C46_operator",
    "C46_operator_quiet",
    "C46_time_goes_back_refuted"
   ],
   "note": "False as stated: an activation during release loses one delta; releasing in the attack reports Fire; a restart is not reported as Start; time going backwards panics. Proved: phases as functions of the time since (de)activation (with that lost delta), order, the exact flags, and the operator on the scheduler for any source, destination and other tasks (also ones that push triggers during a tick). The values are C64."
  },
  {
   "property": "C47",
   "status": "partial",
   "theorems": [
    "C47_finished_mute_partial",
    "C47_finished_refuted"
   ],
   "note": "Proved for the publish subject; false for behavior, replay and async (refuted with witnesses)."
  },
  {
   "property": "C48",
   "status": "partial",
   "theorems": [
    "C48_fallback_partial",
    "C48_timer_partial",
    "C48_interval_partial",
    "C48_iterator_on_tick_partial",
    "C48_delay_refuted",
    "C48_observe_on_refuted",
    "C48_debounce_refuted",
    "C48_throttle_refuted"
   ],
   "note": "Proved for fallback_when_silent, timer, interval and iterator_on_tick. False for delay, observe_on, debounce_time and throttle_time, which keep delivering pending values (refuted)."
  },
  {
   "property": "C49",
   "status": "partial",
   "theorems": [
    "C49_no_panic_partial",
    "C49_panic_refuted"
   ],
   "note": "Proved if tasks of the same scheduler do not call the operator; refuted otherwise. Missing: such tasks, where it is false."
  },
  {
   "property": "C51",
   "status": "partial",
   "theorems": [
    "C51_polite_partial",
    "C51_join_refuted",
    "C51_deferred_error_refuted"
   ],
   "note": "Proved for zip, combine_latest, combine_changes and with_latest_from if no call was deferred. False for join, and for deferred errors (refuted)."
  },
  {
   "property": "C52",
   "status": "proved",
   "theorems": [
    "C52_late"
   ],
   "note": "For sources that keep the observer contract and a queue capacity above 0."
  },
  {
   "property": "C50",
   "status": "partial",
   "theorems": [
    "C50_merge",
    "C50_concat_refuted",
    "C50_switch",
    "C50_passive",
    "C50_switch_refuted",
    "C50_exhaust_refuted"
   ],
   "note": "Proved for limits of at least 2, and for switch and exhaust with destinations that do not close themselves; the release for switch with any. False for concat (limit 1), which subscribes to the next one on unsubscription and leaks it, and for switch and exhaust if the destination closes itself (refuted)."
  },
  {
   "property": "C53",
   "status": "partial",
   "theorems": [
    "C53_ends",
    "C53_merge",
    "C53_passive",
    "C53_switch_refuted"
   ],
   "note": "Every call returns; no panic for any limit, nor for switch and exhaust with destinations that do not close themselves. False for switch and exhaust if the destination closes itself (refuted)."
  },
  {
   "property": "C54",
   "status": "partial",
   "theorems": [
    "C54_just",
    "C54_empty",
    "C54_throw",
    "C54_closed",
    "C54_iter",
    "C54_iter_any",
    "C54_iter_endless",
    "C54_iter_forever",
    "C54_inert",
    "C54_never_open",
    "C54_never_released",
    "C54_closed_runs_at_once_refuted",
    "C54_create_closed",
    "C54_create_open",
    "C54_create_unsubscribed",
    "C54_create_drop_releases_refuted",
    "C54_deferred"
   ],
   "note": "Proved for every pipeline without into_result (see C13). Refuted: the subscription returned by never says closed when the pipeline closed at once (take(0)), but keeps an added teardown instead of running it; dropping the subscription returned by create releases nothing, as it and the destination own each other."
  },
  {
   "property": "C55",
   "status": "partial",
   "theorems": [
    "C55_in_order",
    "C55_only_asked",
    "C55_no_panic",
    "C55_one_thread",
    "C55_two_threads_refuted",
    "C55_dropped",
    "C55_leak_refuted",
    "C55_no_deadlock",
    "C55_no_livelock",
    "C55_add_in_teardown_refuted"
   ],
   "note": "Order, cause, no panic, never dropped dirty: for all threads, programs, teardowns and interleavings. Everything has run after unsubscribe() if there is one thread, or if all clones are dropped in the end; false with two threads that keep their clones (refuted): unsubscribe() is queued while another thread is in is_closed(), and stays queued. A stored teardown that holds a clone keeps an un-unsubscribed subscription alive for ever (refuted). No deadlock and boundedly many steps if no teardown adds a teardown; such a teardown waits for its own thread (refuted)."
  },
  {
   "property": "C56",
   "status": "partial",
   "theorems": [
    "C56_messages",
    "C56_all_messages_refuted",
    "C56_keyboard",
    "C56_resource",
    "C56_added_refuted",
    "C56_missing_refuted",
    "C56_keyboard_unsubscribe",
    "C56_resource_unsubscribe",
    "C56_message_unsubscribe_refuted"
   ],
   "note": "Proved in full as long as the world changes between ticks only and the resources exist. Refuted: with two updates between ticks messages are lost; a resource removed and added again between two ticks is not told as added; without the message or keyboard resource the task panics; a destination that unsubscribes in answer to a message is given the rest of them, in that tick and later ones, as the task holds the destination's lock and never applies the deferred unsubscribe."
  },
  {
   "property": "C57",
   "status": "partial",
   "theorems": [
    "C57_orderly",
    "C57_reachable",
    "C57_unsubscribed",
    "C57_tidy",
    "C57_clean",
    "C57_decided",
    "C57_at_once",
    "C57_retried",
    "C57_retried_closed",
    "C57_same_frame",
    "C57_exit",
    "C57_retry_refuted",
    "C57_despawn_refuted"
   ],
   "note": "False in two ways, both shown by concrete runs: a retry happens in the First schedule of a later frame, but the entity of a subscription that waits is despawned by the clean up in Last of the frame it was made in, so the retried subscription is made and then cannot be attached (C57_retry_refuted; C57_same_frame shows that no subscription is ever attached after the frame it was made in; the insert on the missing entity panics with Bevy's default error handler); and despawning the entity of a subscription that waits does not stop the retry (C57_despawn_refuted). The rest is proved."
  },
  {
   "property": "C58",
   "status": "proved",
   "theorems": [
    "C58_merge",
    "C58_merge_runs",
    "C58_chain",
    "C58_hears",
    "C58_arrives",
    "C58_concat",
    "C58_sync",
    "C58_concat_sync",
    "C58_values"
   ],
   "note": "The result is given as a function of what is heard (the trace without the calls on the destination); C58_hears and C58_arrives say what is heard. That there is a run that does not panic is C58_merge_runs. Histories in which an inner observable unsubscribes its subscriber without completing are left out (Example C58_unsubscribed)."
  },
  {
   "property": "C59",
   "status": "proved",
   "theorems": [
    "C59_subscribe_on",
    "C59_mirrors",
    "C59_never"
   ],
   "note": "Complete for destinations that do not call back. Not modelled: what the source's own subscription does when it is torn down (SharedSubscription, C55)."
  },
  {
   "property": "C60",
   "status": "partial",
   "theorems": [
    "C60_destination",
    "C60_all",
    "C60_late_refuted"
   ],
   "note": "The last sentence is false: the tasks already scheduled are not cancelled when the subscription is unsubscribed, so what was said before is told in the next tick (C60_late_refuted). The rest is proved, for entities that are not spawned or despawned within a tick of the scheduler and for writers that do not panic."
  },
  {
   "property": "C61",
   "status": "partial",
   "theorems": [
    "C61_hears",
    "C61_settles",
    "C61_once",
    "C61_early_refuted",
    "C61_leak_refuted"
   ],
   "note": "Two sentences are false: an event triggered between the subscription and the first tick is not heard, contrary to the documentation of EventObservable (C61_early_refuted), and because cancelling an invocation drops all other invocations waiting to be made (ticking_executor.rs:176), someone else's cancel_invoked in the same batch makes the satellite stay for ever (C61_leak_refuted). The rest is proved, for others that do not cancel invocations and runs that do not hit the scheduler's depth limit."
  },
  {
   "property": "C62",
   "status": "partial",
   "theorems": [
    "C62_poison",
    "C62_silent",
    "C62_closes",
    "C62_teardowns",
    "C62_dropped",
    "C62_shared_silent",
    "C62_shared_teardowns",
    "C62_shared_dropped",
    "C62_shared_stuck",
    "C62_shared_refuted",
    "C62_dirty_refuted",
    "C62_lost_refuted"
   ],
   "note": "False in three ways, shown by concrete runs. SharedSubscriber takes a poisoned lock for one that is busy (try_lock fails for both), so after a panic every call, unsubscribe too, is put into its queue and stays there: nothing about the destination changes until a teardown is added or the last clone is dropped (C62_shared_stuck, C62_shared_refuted), and dropping the last clone then fails the debug assertion about a dirty queue (C62_dirty_refuted). If a teardown panics, those registered after it are dropped without being executed (C62_lost_refuted). The rest is proved."
  },
  {
   "property": "C63",
   "status": "proved",
   "theorems": [
    "C63_switch",
    "C63_exhaust",
    "C63_switch_runs",
    "C63_exhaust_runs",
    "C63_switch_map",
    "C63_exhaust_map",
    "C63_map",
    "C63_merge_map",
    "C63_mapper",
    "C63_values"
   ],
   "note": "For all histories, as long as no call panics; that none does is proved (C53) for destinations that do not close themselves, and C53_switch_refuted shows a panic otherwise. For concat_map and merge_map: equal to the flattening of the mapped history (C63_map), so C34 and C58 apply."
  },
  {
   "property": "C64",
   "status": "proved",
   "theorems": [
    "C64_active",
    "C64_release",
    "C64_none",
    "C64_start",
    "C64_seconds",
    "C64_range",
    "C64_numbers"
   ],
   "note": "In bit-exact binary32 arithmetic, for arbitrary easing curves. Examples beside it show that a NaN sustain volume does come out as NaN, and that a phase shorter than f32::EPSILON seconds (119 ns) does not reach its end value."
  },
  {
   "property": "C65",
   "status": "proved",
   "theorems": [
    "C65_collector",
    "C65_assertions",
    "C65_terminal",
    "C65_mock",
    "C65_takes",
    "C65_mock_for_real"
   ],
   "note": "The example at the end lists what the helpers do not see: values after a completion, a teardown executed twice; and that asking for a round before the previous one exists panics."
  },
  {
   "property": "C66",
   "status": "proved",
   "theorems": [
    "C66_subjects",
    "C66_before",
    "C66_during",
    "C66_after",
    "C66_value",
    "C66_greeting",
    "C66_closed",
    "C66_off",
    "C66_new",
    "C66_kept",
    "C66_dropped"
   ],
   "note": "For the four subjects of PropSubjects.v with subscribers that panic after they made their calls. The caller catches the panic. C66_value is for subscribers that do not call back and a subject with an empty queue; C66_new for a new subscriber that neither calls back nor panics. The calls that teardowns make while a subscriber is dropped are left out."
  },
  {
   "property": "C67",
   "status": "proved",
   "theorems": [
    "C67_no_panic",
    "C67_heard",
    "C67_told",
    "C67_held",
    "C67_let_go",
    "C67_unsubscribe",
    "C67_drop"
   ],
   "note": "One thread. A source that is unsubscribed lets go of its subscriber at the latest when its current call returns. The examples show what may surprise: the second source is subscribed to even if the first has ended the result, and dropping the returned subscription does not unsubscribe."
  },
  {
   "property": "C68",
   "status": "partial",
   "theorems": [
    "C68_delay",
    "C68_observe_on_partial",
    "C68_observe_on_error_refuted",
    "C68_debounce_partial",
    "C68_debounce_refuted"
   ],
   "note": "delay is proved in full. observe_on: proved for destinations that make no errors; refuted otherwise, as the task decides by the counter after the value was told, and unsubscribes the destination before the deferred error is applied. debounce_time: proved for destinations and tasks that push no values from within the scheduler; refuted otherwise, as the task resets the counter after the push made by the destination, so that a later completion is passed on at once and the value is lost."
  },
  {
   "property": "C69",
   "status": "partial",
   "theorems": [
    "C69_one_order",
    "C69_grammar",
    "C69_hears",
    "C69_not_before",
    "C69_closed",
    "C69_leaves",
    "C69_ended",
    "C69_few",
    "C69_panic_refuted",
    "C69_pending_refuted",
    "C69_leave_refuted",
    "C69_end_refuted",
    "C69_late_refuted",
    "C69_errors_refuted",
    "C69_debug_refuted"
   ],
   "note": "Proved for all interleavings: the common order, the grammar, the order of each thread's values, that all is told, that nothing told or deferred before a subscription began is heard by it, that nothing is heard of pushes begun after the subject was closed, that leaving and ends take effect if the queue of deferred notifications is empty when all have returned, and that ten operations in all cannot panic. Refuted: a value, a leaving or a completion deferred after the holder of the table has emptied the queue and before it releases it stays in the queue when all have returned (try_apply_deferred finds the table locked and nobody looks again); a subscriber that comes between the completion and its being stored stays open for ever or is only unsubscribed; two errors at once: earlier and later subscribers hear different ones; eleven operations suffice for the depth panic, after which the table is poisoned; two completions at once fail a debug_assert."
  },
  {
   "property": "C70",
   "status": "partial",
   "theorems": [
    "C70_greets",
    "C70_replays",
    "C70_one_order",
    "C70_grammar",
    "C70_hears",
    "C70_latest",
    "C70_current_refuted",
    "C70_once_refuted",
    "C70_stored_refuted",
    "C70_replay_refuted"
   ],
   "note": "C70_greets (behavior) and C70_replays (replay) say what a destination is greeted with and what it may still hear of each thread; C70_one_order, C70_grammar and C70_hears are for any cell; C70_latest: with one pushing thread who had its subscription before the last value was stored was told last what is stored. Refuted with schedules of two threads: C70_current_refuted (greeted before a value is stored, added after it was told: left behind for good), C70_once_refuted (the value is both greeting and told), C70_stored_refuted (stored value is not the one told last), C70_replay_refuted (replayed in another order than told). Simplified: a greeting does not make the destination close itself; destinations do not call back."
  },
  {
   "property": "C71",
   "status": "partial",
   "theorems": [
    "C71_values",
    "C71_once",
    "C71_greeted",
    "C71_one",
    "C71_grammar",
    "C71_late",
    "C71_two_refuted",
    "C71_same_refuted",
    "C71_between_refuted"
   ],
   "note": "C71_values, C71_once, C71_greeted, C71_one, C71_grammar and C71_late hold for every interleaving. Refuted with schedules of two threads: C71_two_refuted (two threads complete: two values are told), C71_same_refuted (who was there hears no value, who comes later does), C71_between_refuted (who subscribes during the completion hears only the completion). Simplified: the reducer is a function without state; a greeting does not make the destination close itself; destinations do not call back."
  },
  {
   "property": "C72",
   "status": "partial",
   "theorems": [
    "C72_signal",
    "C72_pushes",
    "C72_pushes_only",
    "C72_signal_refuted",
    "C72_signal_later_refuted",
    "C72_subscribe",
    "C72_subscribe_one",
    "C72_subscribe_none",
    "C72_subscribe_any",
    "C72_subscribe_refuted",
    "C72_retry_refuted",
    "C72_removed",
    "C72_despawned",
    "C72_balance",
    "C72_not_dropped",
    "C72_replaced_refuted",
    "C72_satellites",
    "C72_satellites_any",
    "C72_nothing_left",
    "C72_left_refuted",
    "C72_outputs",
    "C72_outputs_alone",
    "C72_outputs_refuted"
   ],
   "note": "All histories. Under careful (no component inserted over one of its type): C72_signal, C72_subscribe, C72_subscribe_one, C72_subscribe_none, C72_not_dropped, C72_satellites. Without it: C72_pushes, C72_pushes_only, C72_subscribe_any, C72_removed, C72_despawned, C72_balance, C72_satellites_any, C72_nothing_left, C72_outputs, C72_outputs_alone. Refuted: C72_signal_refuted and C72_signal_later_refuted (pushed twice), C72_subscribe_refuted and C72_retry_refuted (the destination is dropped by a satellite left behind), C72_replaced_refuted (the overwritten subject is not unsubscribed), C72_left_refuted (satellites without a component), C72_outputs_refuted (ObservableOutputs is removed with one of two observables). Bevy's hooks, relationships and observers are modelled from their documentation."
  },
  {
   "property": "C73",
   "status": "proved",
   "theorems": [
    "C73_fallback_when_silent",
    "C73_throttle",
    "C73_throttle_no_panic"
   ],
   "note": "Proved for any answers. The one statement with a hypothesis about other tasks (no panic of throttle_time) is refuted without it as C49_panic_refuted."
  },
  {
   "property": "C74",
   "status": "partial",
   "theorems": [
    "C74_orderly_partial",
    "C74_composed_refuted",
    "C74_find",
    "C74_find_index",
    "C74_first",
    "C74_element_at",
    "C74_take",
    "C74_is_empty_refuted",
    "C74_tap",
    "C74_tap_next",
    "C74_on_next"
   ],
   "note": "The first part is false of composed operators (C74_composed_refuted: count then is_empty tells false, completes, then tells true to whatever callback follows). Everything else proved for any call history."
  },
  {
   "property": "C75",
   "status": "partial",
   "theorems": [
    "C75_fn",
    "C75_dyn",
    "C75_noop",
    "C75_fn_direct",
    "C75_dyn_direct",
    "C75_with",
    "C75_print_partial",
    "C75_print_once",
    "C75_print_drop",
    "C75_print_neat_partial",
    "C75_print_after_end_refuted"
   ],
   "note": "PrintObserver does not protect itself: it goes on printing after its end, also for a well-behaved source (C75_print_after_end_refuted), so only the lines up to the end are those of another observer (C75_print_partial), and what comes after the end is bounded only behind a single operator (C75_print_neat_partial)."
  },
  {
   "property": "C76",
   "status": "proved",
   "theorems": [
    "C76_answers",
    "C76_poison",
    "C76_observable"
   ],
   "note": "One thread; counters are unbounded. The lock around the counters is modelled only by its poisoning."
  },
  {
   "property": "C77",
   "status": "proved",
   "theorems": [
    "C77_calls",
    "C77_clones",
    "C77_is_closed",
    "C77_alone",
    "C77_passed_over",
    "C77_panics"
   ],
   "note": ""
  }
 ]
}