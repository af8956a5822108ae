{
 "C01": {
  "note": "Every pipeline of the modelled synchronous operators (also with into_result), every call history."
 },
 "C02": {
  "note": "Pipelines without into_result (see C13)."
 },
 "C03": {
  "note": "Pipelines without into_result (see C13). Teardown callbacks are modelled by their ids; a panicking teardown is not modelled."
 },
 "C04": {
  "note": "Pipelines without into_result (see C13)."
 },
 "C05": {
  "note": "Pipelines without into_result (see C13)."
 },
 "C11": {
  "note": "Closed form of the observer's view for every history, also with calls after the terminal one."
 },
 "C12": {
  "note": "For every downstream; the silence part for downstreams that keep the contracts (record lawful)."
 },
 "C13": {
  "note": "False of the code: error() on into_result only pushes a value (into_result_subscriber.rs:43-55). Refuted with a witness; the _partial theorem says what it does deliver."
 },
 "C14": {
  "note": "Destinations are arbitrary reacting state machines; the destination does not inspect is_closed of the shared subscriber or add teardowns to it while locked (the latter would deadlock). The panic exactly at ten non-empty generations is shown in the examples."
 },
 "C15": {
  "note": "False as stated: two schedules refute it (a stranded value; the depth panic). Proved for all programs and interleavings: per-thread order without loss or duplication, everything not delivered is in the queue, and one undisturbed call flushes it. Missing: delivery by the time all calls have returned, which does not hold."
 },
 "C16": {
  "note": "Publish subject, all iteration orders, subscribers that may close themselves at any value but do not call the subject from inside (those are C18)."
 },
 "C17": {
  "note": "Also with subscribers that call the subject, except from teardowns. A late subscriber whose error/complete callback calls the subject deadlocks (refuted part, outside the statement)."
 },
 "C18": {
  "note": "Proved for all reactions other than calls made by teardowns, for every execution that ends neither in the depth panic nor in the deadlock. Both exceptions are shown real by _refuted theorems: a value pushed by a teardown during subscription.unsubscribe() stays queued; ten generations panic."
 },
 "C19": {
  "note": "Also with re-entrant calls (calls from teardowns and calls made by a subscriber while it is given the stored value are excluded)."
 },
 "C20": {
  "note": "As C19. The ring buffer crate is not part of the repository and is modelled as a list of at most n values."
 },
 "C21": {
  "note": "The exact behaviour for all reducers and histories: C21_async_partial for subscribers that do not call back (no condition on the run), C21_async_reentrant_partial for subscribers that call the subject while being told something (not from a teardown), where a completion is two steps and what is called in between comes in between. The statement is false: late subscribers of a subject unsubscribed without completion still get the value; a value pushed after completion changes what late subscribers get; a subscriber calling back on the value can have the value delivered twice, followed by an error, or missed by a newcomer (all refuted)."
 },
 "C22": {
  "note": "The three views as pipelines of the modelled filter and map operators fed with what the behavior subject delivers."
 },
 "C47": {
  "note": "Proved for the publish subject; false for behavior, replay and async (refuted with witnesses)."
 },
 "C23": {
  "note": "All histories, all closures. Due time counts from the time the executor took the request over (its latest tick), as in the code. Cancellation takes effect when the executor drains it."
 },
 "C24": {
  "note": "Exact count for positive intervals; the zero-interval clause is false: a task that is not done loops forever inside one tick (ticked_work_repeating.rs:81-100), refuted for every such closure."
 },
 "C25": {
  "note": "All closures (which may schedule, cancel and invoke from inside a tick), all histories that do not panic at the depth limit."
 },
 "C26": {
  "note": "False of the code: CancelInvoked keeps the cancelled id and drops all others (ticking_executor.rs, retain with ==). Refuted; the _partial theorem: without cancellations every invocation is made once, in order."
 },
 "C27": {
  "note": "The clock itself never decreases (C27_now). Closures are handed the raw tick, so ticking to a past time shows them that time: refuted. Proved for ticking by deltas. Missing: tick_to with a time in the past, where it is false."
 },
 "C28": {
  "note": "All histories, also with other tasks on the scheduler that push and complete, and destinations that close themselves. The destination does not call back into the operator."
 },
 "C29": {
  "note": "Proved if values are not pushed by tasks of the same scheduler; refuted otherwise (a value pushed in the tick that delivers the previous one is lost by a completion: the counter is reset to 0, debounce_time_subscriber.rs:88). Missing: pushes from within ticks, where it is false."
 },
 "C30": {
  "note": "False of the code in all three parts, each refuted with a run (rate after idle time, trailing value lost, order). The _partial theorem says what does hold. Missing: rate, trailing value and order, which are false."
 },
 "C31": {
  "note": "All histories; a value pushed inside a tick by another task is delivered in that same tick."
 },
 "C32": {
  "note": "Proved except the last clause, which is false (a value followed by completion before the next tick is lost), refuted."
 },
 "C33": {
  "note": "interval and timer proved in full. iterator_on_tick: proved except completion for an empty iterator, and for a one-item iterator with start_on_subscribe, which are false (refuted). Fused iterators; every_nth_frame 0 (no scheduler) is not included."
 },
 "C48": {
  "note": "Proved for fallback_when_silent, timer, interval and iterator_on_tick. False for delay, observe_on, debounce_time and throttle_time, which keep delivering pending values (refuted)."
 },
 "C49": {
  "note": "Proved if tasks of the same scheduler do not call the operator; refuted otherwise. Missing: such tasks, where it is false."
 },
 "C43": {
  "note": "Proved for sources that keep the observer contract, capacity above 0 and no pop after an error. False otherwise: three witnesses (capacity 0 holds a value; a value pushed after the completion drops the completion; popping after an error hits a debug assertion)."
 },
 "C44": {
  "note": "All histories of notifications and unsubscribe_if_not_already; the debug assertions are explicit panics, and the accepted histories are characterised."
 },
 "C45": {
  "note": "All four notification types and their conversions; push for any subscriber, as four arbitrary methods on a state."
 },
 "C46": {
  "note": "False as stated: an activation during release loses one delta; releasing in the attack reports Fire; a restart is not reported as Start; time going backwards panics. Proved: phases as functions of the time since (de)activation (with that lost delta), order, the exact flags, and the operator on the scheduler for any source, destination and other tasks (also ones that push triggers during a tick). The values are C64."
 },
 "C39": {
  "note": "Proved exactly what zip tells its destination, with and without overflow, for every destination. False: it does not end when one source is exhausted while the other has values left over, not even after both completed; overflow shifts the pairing (refuted)."
 },
 "C40": {
  "note": "Proved exactly what combine_latest tells its destination. False: a source that completes empty before the other emitted only unsubscribes it; one that unsubscribes empty after the other emitted leaves it open (refuted)."
 },
 "C41": {
  "note": "Proved exactly what the three tell their destination. False as to ending at once: with_latest_from stays open when the inner observable unsubscribes without a value (refuted)."
 },
 "C51": {
  "note": "Proved for zip, combine_latest, combine_changes and with_latest_from if no call was deferred. False for join, and for deferred errors (refuted)."
 },
 "C52": {
  "note": "For sources that keep the observer contract and a queue capacity above 0."
 },
 "C34": {
  "note": "Limit, once, passing on and unsubscription for all histories; order, promptness, concatenation and completion if no inner observable unsubscribes without completing. False otherwise: those that wait are then forgotten and overtaken (refuted)."
 },
 "C35": {
  "note": "Completion is proved if no inner observable unsubscribes without completing, and depends on the order of events otherwise (refuted); the rest holds for all histories."
 },
 "C36": {
  "note": "As C35. That it is closed once the downstream closes is false (C50)."
 },
 "C50": {
  "note": "Proved for limits of at least 2, and for switch and exhaust with destinations that do not close themselves; the release for switch with any. False for concat (limit 1), which subscribes to the next one on unsubscription and leaks it, and for switch and exhaust if the destination closes itself (refuted)."
 },
 "C53": {
  "note": "Every call returns; no panic for any limit, nor for switch and exhaust with destinations that do not close themselves. False for switch and exhaust if the destination closes itself (refuted)."
 },
 "C37": {
  "note": "Proved exactly what the destination is told, for every destination and every interleaving. False: the replacement of a synchronous source's error (throw) is cut off by the source's own unsubscription, and is_closed stays false when the destination closed itself (refuted)."
 },
 "C38": {
  "note": "Exact for synchronous sources; attempts one by one, passing on, giving up, release and unsubscription for all sources and histories. False: an attempt that fails late leads to n+2 attempts and to an error that is not the last; the last attempt is unsubscribed if it is still running when subscribed to, so retry(0) silences every asynchronous source (refuted)."
 },
 "C42": {
  "note": "For all options, histories, sources and orders of telling: one subscription to the source at a time, everything told to all present and nobody else, ended only by the user or the last to leave, connectors kept and replaced as the options say. Ended when the last subscriber leaves only if connect has returned and the source never completed or failed (partial); false otherwise (refuted): has_completed stays set after the connector was replaced, a subscriber who leaves during connect is not counted off for the connection being made, and subscribers of a former connector keep a new connection alive."
 },
 "C54": {
  "note": "Proved for every pipeline without into_result (see C13). Refuted: the subscription returned by never says closed when the pipeline closed at once (take(0)), but keeps an added teardown instead of running it; dropping the subscription returned by create releases nothing, as it and the destination own each other."
 },
 "C55": {
  "note": "Order, cause, no panic, never dropped dirty: for all threads, programs, teardowns and interleavings. Everything has run after unsubscribe() if there is one thread, or if all clones are dropped in the end; false with two threads that keep their clones (refuted): unsubscribe() is queued while another thread is in is_closed(), and stays queued. A stored teardown that holds a clone keeps an un-unsubscribed subscription alive for ever (refuted). No deadlock and boundedly many steps if no teardown adds a teardown; such a teardown waits for its own thread (refuted)."
 },
 "C56": {
  "note": "Proved in full as long as the world changes between ticks only and the resources exist. Refuted: with two updates between ticks messages are lost; a resource removed and added again between two ticks is not told as added; without the message or keyboard resource the task panics; a destination that unsubscribes in answer to a message is given the rest of them, in that tick and later ones, as the task holds the destination's lock and never applies the deferred unsubscribe."
 },
 "C57": {
  "note": "False in two ways, both shown by concrete runs: a retry happens in the First schedule of a later frame, but the entity of a subscription that waits is despawned by the clean up in Last of the frame it was made in, so the retried subscription is made and then cannot be attached (C57_retry_refuted; C57_same_frame shows that no subscription is ever attached after the frame it was made in; the insert on the missing entity panics with Bevy's default error handler); and despawning the entity of a subscription that waits does not stop the retry (C57_despawn_refuted). The rest is proved."
 },
 "C58": {
  "note": "The result is given as a function of what is heard (the trace without the calls on the destination); C58_hears and C58_arrives say what is heard. That there is a run that does not panic is C58_merge_runs. Histories in which an inner observable unsubscribes its subscriber without completing are left out (Example C58_unsubscribed)."
 },
 "C59": {
  "note": "Complete for destinations that do not call back. Not modelled: what the source's own subscription does when it is torn down (SharedSubscription, C55)."
 },
 "C60": {
  "note": "The last sentence is false: the tasks already scheduled are not cancelled when the subscription is unsubscribed, so what was said before is told in the next tick (C60_late_refuted). The rest is proved, for entities that are not spawned or despawned within a tick of the scheduler and for writers that do not panic."
 },
 "C61": {
  "note": "Two sentences are false: an event triggered between the subscription and the first tick is not heard, contrary to the documentation of EventObservable (C61_early_refuted), and because cancelling an invocation drops all other invocations waiting to be made (ticking_executor.rs:176), someone else's cancel_invoked in the same batch makes the satellite stay for ever (C61_leak_refuted). The rest is proved, for others that do not cancel invocations and runs that do not hit the scheduler's depth limit."
 },
 "C62": {
  "note": "False in three ways, shown by concrete runs. SharedSubscriber takes a poisoned lock for one that is busy (try_lock fails for both), so after a panic every call, unsubscribe too, is put into its queue and stays there: nothing about the destination changes until a teardown is added or the last clone is dropped (C62_shared_stuck, C62_shared_refuted), and dropping the last clone then fails the debug assertion about a dirty queue (C62_dirty_refuted). If a teardown panics, those registered after it are dropped without being executed (C62_lost_refuted). The rest is proved."
 },
 "C63": {
  "note": "For all histories, as long as no call panics; that none does is proved (C53) for destinations that do not close themselves, and C53_switch_refuted shows a panic otherwise. For concat_map and merge_map: equal to the flattening of the mapped history (C63_map), so C34 and C58 apply."
 },
 "C64": {
  "note": "In bit-exact binary32 arithmetic, for arbitrary easing curves. Examples beside it show that a NaN sustain volume does come out as NaN, and that a phase shorter than f32::EPSILON seconds (119 ns) does not reach its end value."
 },
 "C65": {
  "note": "The example at the end lists what the helpers do not see: values after a completion, a teardown executed twice; and that asking for a round before the previous one exists panics."
 },
 "C66": {
  "note": "For the four subjects of PropSubjects.v with subscribers that panic after they made their calls. The caller catches the panic. C66_value is for subscribers that do not call back and a subject with an empty queue; C66_new for a new subscriber that neither calls back nor panics. The calls that teardowns make while a subscriber is dropped are left out."
 },
 "C67": {
  "note": "One thread. A source that is unsubscribed lets go of its subscriber at the latest when its current call returns. The examples show what may surprise: the second source is subscribed to even if the first has ended the result, and dropping the returned subscription does not unsubscribe."
 },
 "C68": {
  "note": "delay is proved in full. observe_on: proved for destinations that make no errors; refuted otherwise, as the task decides by the counter after the value was told, and unsubscribes the destination before the deferred error is applied. debounce_time: proved for destinations and tasks that push no values from within the scheduler; refuted otherwise, as the task resets the counter after the push made by the destination, so that a later completion is passed on at once and the value is lost."
 },
 "C69": {
  "note": "Proved for all interleavings: the common order, the grammar, the order of each thread's values, that all is told, that nothing told or deferred before a subscription began is heard by it, that nothing is heard of pushes begun after the subject was closed, that leaving and ends take effect if the queue of deferred notifications is empty when all have returned, and that ten operations in all cannot panic. Refuted: a value, a leaving or a completion deferred after the holder of the table has emptied the queue and before it releases it stays in the queue when all have returned (try_apply_deferred finds the table locked and nobody looks again); a subscriber that comes between the completion and its being stored stays open for ever or is only unsubscribed; two errors at once: earlier and later subscribers hear different ones; eleven operations suffice for the depth panic, after which the table is poisoned; two completions at once fail a debug_assert."
 },
 "C70": {
  "note": "C70_greets (behavior) and C70_replays (replay) say what a destination is greeted with and what it may still hear of each thread; C70_one_order, C70_grammar and C70_hears are for any cell; C70_latest: with one pushing thread who had its subscription before the last value was stored was told last what is stored. Refuted with schedules of two threads: C70_current_refuted (greeted before a value is stored, added after it was told: left behind for good), C70_once_refuted (the value is both greeting and told), C70_stored_refuted (stored value is not the one told last), C70_replay_refuted (replayed in another order than told). Simplified: a greeting does not make the destination close itself; destinations do not call back."
 },
 "C71": {
  "note": "C71_values, C71_once, C71_greeted, C71_one, C71_grammar and C71_late hold for every interleaving. Refuted with schedules of two threads: C71_two_refuted (two threads complete: two values are told), C71_same_refuted (who was there hears no value, who comes later does), C71_between_refuted (who subscribes during the completion hears only the completion). Simplified: the reducer is a function without state; a greeting does not make the destination close itself; destinations do not call back."
 },
 "C72": {
  "note": "All histories. Under careful (no component inserted over one of its type): C72_signal, C72_subscribe, C72_subscribe_one, C72_subscribe_none, C72_not_dropped, C72_satellites. Without it: C72_pushes, C72_pushes_only, C72_subscribe_any, C72_removed, C72_despawned, C72_balance, C72_satellites_any, C72_nothing_left, C72_outputs, C72_outputs_alone. Refuted: C72_signal_refuted and C72_signal_later_refuted (pushed twice), C72_subscribe_refuted and C72_retry_refuted (the destination is dropped by a satellite left behind), C72_replaced_refuted (the overwritten subject is not unsubscribed), C72_left_refuted (satellites without a component), C72_outputs_refuted (ObservableOutputs is removed with one of two observables). Bevy's hooks, relationships and observers are modelled from their documentation."
 },
 "C73": {
  "note": "Proved for any answers. The one statement with a hypothesis about other tasks (no panic of throttle_time) is refuted without it as C49_panic_refuted."
 },
 "C74": {
  "note": "The first part is false of composed operators (C74_composed_refuted: count then is_empty tells false, completes, then tells true to whatever callback follows). Everything else proved for any call history."
 },
 "C75": {
  "note": "PrintObserver does not protect itself: it goes on printing after its end, also for a well-behaved source (C75_print_after_end_refuted), so only the lines up to the end are those of another observer (C75_print_partial), and what comes after the end is bounded only behind a single operator (C75_print_neat_partial)."
 },
 "C76": {
  "note": "One thread; counters are unbounded. The lock around the counters is modelled only by its poisoning."
 }
}
