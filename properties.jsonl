{"id": "C01", "title": "Observer grammar through any pipeline", "statement": "Whatever sequence of next/error/complete/unsubscribe/add_teardown calls is made on the head of an operator pipeline (including calls made after a terminal one), the observer at the end sees zero or more next, followed by at most one of error or complete, and then nothing.", "quantifier": "all pipelines of the modelled operators of any length, all call sequences of any length, all values", "why_tests_cant": "Tests drive a handful of fixed pipelines with polite sources; the claim is about every pipeline and every, also impolite, call history.", "anchors": ["crates/rx_core_common/src/subscribers/subscriber_observer.rs: ObserverSubscriber", "crates/rx_core_common/src/pipe/compose_operator.rs: CompositeOperator", "docs/contracts.md"]}
{"id": "C02", "title": "Closed is absorbing and silent", "statement": "Once the head of a pipeline reports is_closed() it reports it forever, and no later call makes the observer see another notification; unsubscribe on a closed pipeline has no observable effect, and add_teardown on it runs the teardown at once.", "quantifier": "all pipelines of the modelled operators, all states reachable by any call history, all further calls", "why_tests_cant": "Requires every reachable state of every operator stack, not the few states reached by test scripts.", "anchors": ["crates/rx_core_common/src/subscription_like.rs: SubscriptionLike", "crates/rx_core_common/src/subscriptions/subscription_closed_flag.rs", "docs/contracts.md: rx_contract_closed_after_unsubscribe"]}
{"id": "C03", "title": "Teardowns run exactly once, in order, at closing time", "statement": "A teardown added to an open subscription does not run while it stays open, and runs exactly once, in insertion order relative to the other teardowns, when it closes (through error, complete, unsubscribe or drop); one added after closing runs immediately, exactly once. After an error or complete the notification is delivered before the teardowns run.", "quantifier": "all pipelines, all call histories, any number of teardowns added at any points", "why_tests_cant": "The number and placement of teardowns and the way of closing are unbounded; leaks and double frees of resources are schedule dependent.", "anchors": ["crates/rx_core_common/src/subscriptions/subscription_data.rs: SubscriptionData::{unsubscribe,add_teardown,drop}", "crates/rx_core_common/src/subscribers/subscriber_observer.rs", "crates/rx_core_common/src/subscriptions/teardown.rs"]}
{"id": "C04", "title": "Terminal calls close the pipeline", "statement": "Right after error, complete or unsubscribe is called on the head of a pipeline, the head reports is_closed() and every teardown added so far has run (contracts closed_after_error, closed_after_complete, closed_after_unsubscribe).", "quantifier": "all pipelines of the modelled operators, all call histories", "why_tests_cant": "Each operator has its own early-exit paths (matched/unmatched, count reached, downstream closed); their combinations in stacks are unbounded.", "anchors": ["docs/contracts.md", "crates/rx_core_operator_*/src/*_subscriber.rs"]}
{"id": "C05", "title": "Dropping a subscription releases everything once", "statement": "Dropping the head of a pipeline in any state runs every teardown not yet run, exactly once, emits no notification, and dropping one that is already closed does nothing.", "quantifier": "all pipelines, all call histories before the drop", "why_tests_cant": "Depends on the order of Drop impls of a nested type for every reachable state.", "anchors": ["crates/rx_core_common/src/subscriptions/subscription_data.rs: Drop", "crates/rx_core_macro_common: RxSubscriber derive drop", "crates/rx_core_operator_take/src/take_subscriber.rs"]}
{"id": "C06", "title": "Stateless transformations are list functions", "statement": "map, filter (with index), filter_map, map_into, map_error, enumerate, tap_next, lift_option, identity: the values the observer sees are exactly the corresponding list function of the values pushed, in order, delivered synchronously, and terminal signals pass unchanged.", "quantifier": "all functions/predicates, all input value sequences of any length, all terminations, all downstream subscribers", "why_tests_cant": "The claim is an equation for every callback and every sequence, including what happens after a terminal.", "anchors": ["crates/rx_core_operator_map/src", "crates/rx_core_operator_filter/src", "crates/rx_core_operator_filter_map/src", "crates/rx_core_operator_enumerate/src", "crates/rx_core_operator_tap_next/src", "crates/rx_core_operator_lift_option/src", "crates/rx_core_operator_map_error/src", "crates/rx_core_operator_identity/src"]}
{"id": "C07", "title": "Selecting operators: take, skip, first, find, find_index, element_at, is_empty", "statement": "take(n) passes exactly the first n values and completes synchronously with the n-th (immediately for n = 0); skip(n) drops exactly the first n; first/find/find_index/element_at pass the first matching value (or index) and complete at once, and otherwise finish with the documented error or default; is_empty answers false at the first value, true on an empty completion. Nothing of the input after the decision is visible downstream.", "quantifier": "all n, all predicates, all input sequences, all terminations", "why_tests_cant": "Off-by-one boundaries occur at every n and every length; tests pick two or three.", "anchors": ["crates/rx_core_operator_take/src", "crates/rx_core_operator_skip/src", "crates/rx_core_operator_first/src", "crates/rx_core_operator_find/src", "crates/rx_core_operator_find_index/src", "crates/rx_core_operator_element_at/src", "crates/rx_core_operator_is_empty/src"]}
{"id": "C08", "title": "Accumulating operators: scan, reduce, count, pairwise, buffer_count", "statement": "scan emits every partial fold, reduce exactly one final fold (the seed when there was no value) followed by complete, count the number of values, pairwise all adjacent pairs, buffer_count the consecutive chunks of the given size with the remainder flushed on completion only; concatenating the buffers of a completed source gives back the source.", "quantifier": "all fold functions and seeds, all sizes, all input sequences", "why_tests_cant": "Equational claims over all lengths relative to all sizes; remainders at every residue.", "anchors": ["crates/rx_core_operator_scan/src", "crates/rx_core_operator_reduce/src", "crates/rx_core_operator_count/src", "crates/rx_core_operator_pairwise/src", "crates/rx_core_operator_buffer_count/src"]}
{"id": "C09", "title": "start_with and end_with", "statement": "start_with(f) makes the observer see f() first, before anything of the source and exactly once; end_with(f) makes it see f() after all source values and right before complete, and never if the source errors or is unsubscribed.", "quantifier": "all callbacks and input sequences, all terminations", "why_tests_cant": "Placement relative to every possible sequence and termination.", "anchors": ["crates/rx_core_operator_start_with/src", "crates/rx_core_operator_end_with/src"]}
{"id": "C10", "title": "Error-channel conversions and their round trips", "statement": "dematerialize after materialize is the identity on every well formed notification sequence; lift_result after into_result re-raises exactly the errors and values of the source; materialize delivers the terminal as a value and then completes; error/complete inside a dematerialised stream ends it.", "quantifier": "all notification sequences", "why_tests_cant": "A round trip claim quantifies over all sequences.", "anchors": ["crates/rx_core_operator_materialize/src", "crates/rx_core_operator_dematerialize/src", "crates/rx_core_operator_into_result/src", "crates/rx_core_operator_lift_result/src", "crates/rx_core_common/src/signals/notification_observer.rs"]}
{"id": "C11", "title": "Pipelines compose as functions", "statement": "For any pipeline, what the observer sees is the composition, in order, of the list-level meanings of its operators applied to what was pushed; in particular every prefix of the input has already produced its full output (no buffering other than the operator's own).", "quantifier": "all well-typed operator stacks of any length, all inputs", "why_tests_cant": "Infinite family of pipelines.", "anchors": ["crates/rx_core_common/src/pipe/compose_operator.rs", "crates/rx_core_common/src/operator_composable.rs", "crates/rx_core_operator_composite/src"]}
{"id": "C12", "title": "A pipeline is closed as soon as its downstream is", "statement": "If the downstream subscriber is closed (early while handling a value, or already at subscription), the head of the pipeline reports is_closed() right after the call and no later call on the head makes the observer see anything (contracts closed_if_downstream_closes_early / immediately).", "quantifier": "all operators, all downstream subscribers and the moment they close", "why_tests_cant": "The moment of closing ranges over all positions and all downstream behaviours.", "anchors": ["docs/contracts.md: rx_contract_closed_if_downstream_closes_early", "crates/rx_core_operator_*/src"]}
{"id": "C13", "title": "into_result closes after an upstream error", "statement": "After an upstream error, into_result delivers the error as a value and is then closed (closed_after_error).", "quantifier": "all inputs", "why_tests_cant": "Contract for each reachable state.", "anchors": ["crates/rx_core_operator_into_result/src/into_result_subscriber.rs", "docs/contracts.md: rx_contract_closed_after_error"]}
{"id": "C14", "title": "Shared subscriber: re-entrant calls are neither lost, duplicated, reordered nor deadlocked", "statement": "Calls made on a shared subscriber from inside its own destination (while it is processing) are delivered after the current one, in the order they were made, each exactly once, until the first closing notification; afterwards nothing is delivered. Every cascade of re-entrant generations shorter than the documented depth limit of 10 is delivered completely.", "quantifier": "all destination behaviours (how it reacts to each notification with further calls), all top-level call sequences", "why_tests_cant": "The re-entrancy tree is unbounded and depends on the user's callback.", "anchors": ["crates/rx_core_common/src/subscribers/subscriber_shared.rs: SharedSubscriber, apply_notification_queue"]}
{"id": "C15", "title": "Shared subscriber across threads: nothing is stranded", "statement": "When several threads call next on clones of one shared subscriber under any interleaving, once all calls have returned every value accepted has been delivered exactly once, and the values of each single thread arrive in its own order.", "quantifier": "all numbers of threads and values, all interleavings of lock/try_lock/queue steps", "why_tests_cant": "Interleavings cannot be enumerated by tests.", "anchors": ["crates/rx_core_common/src/subscribers/subscriber_shared.rs: next, try_apply_deferred, defer_notification"]}
{"id": "C16", "title": "Publish subject multicasts uniformly", "statement": "Every subscriber that is open when a notification is pushed receives it exactly once; all subscribers see values in push order; the result does not depend on the internal iteration order of the subscriber table; unsubscribing one subscriber never affects what another one sees.", "quantifier": "all numbers of subscribers, all subscribe/unsubscribe/next/error/complete histories, all iteration orders of the hash map", "why_tests_cant": "Hash map order and histories are unbounded.", "anchors": ["crates/rx_core_subject_publish/src/multicast.rs", "crates/rx_core_subject_publish/src/publish_subject.rs"]}
{"id": "C17", "title": "Late subscribers of a finished subject", "statement": "Subscribing to a completed (errored, unsubscribed) publish subject immediately yields exactly the completion (the same error, a closed subscription) and nothing else; the terminal signal is delivered once per subscriber.", "quantifier": "all histories before the subscription", "why_tests_cant": "All histories.", "anchors": ["crates/rx_core_subject_publish/src/publish_subject.rs: subscribe"]}
{"id": "C18", "title": "Publish subject: re-entrant pushes keep one global order", "statement": "When subscribers push into the subject they are being notified by, the pushed notifications are delivered to all subscribers after the current one, in the order pushed, so that any two subscribers see the same sequence.", "quantifier": "all subscriber reactions, all histories", "why_tests_cant": "Re-entrancy trees are unbounded.", "anchors": ["crates/rx_core_subject_publish/src/multicast.rs", "crates/rx_core_subject_publish/src/publish_subject.rs"]}
{"id": "C19", "title": "Behavior subject: value on subscription", "statement": "A subscriber of a behaviour subject first receives the most recently pushed value (or the initial one) and then exactly the values pushed after it subscribed, in order.", "quantifier": "all histories of pushes, subscriptions, unsubscriptions", "why_tests_cant": "All histories and subscription points.", "anchors": ["crates/rx_core_subject_behavior/src/behavior_subject.rs"]}
{"id": "C20", "title": "Replay subject: the last N values on subscription", "statement": "A subscriber of a replay subject of capacity N first receives the last min(N, pushed) values in push order, and then exactly the values pushed later.", "quantifier": "all capacities, all histories", "why_tests_cant": "Wrap-around of the buffer for every capacity and history length.", "anchors": ["crates/rx_core_subject_replay/src/replay_subject.rs"]}
{"id": "C21", "title": "Async subject: one reduced value at completion", "statement": "Subscribers of an async subject see nothing until completion, then exactly the fold of all values pushed (nothing if none) followed by complete; late subscribers after completion get the same; on error or unsubscribe no value is ever delivered.", "quantifier": "all reducers, all histories", "why_tests_cant": "All histories and reducers.", "anchors": ["crates/rx_core_subject_async/src/async_subject.rs"]}
{"id": "C22", "title": "Provenance subject: filtered views", "statement": "A subscriber asking for one provenance sees exactly the subsequence of values pushed with that provenance, in order (preceded by the current value only if it has that provenance), and terminal signals always.", "quantifier": "all provenance types, all histories", "why_tests_cant": "All histories.", "anchors": ["crates/rx_core_subject_provenance/src/provenance_subject.rs"]}
{"id": "C23", "title": "Delayed work runs exactly once, at the first tick not before its due time", "statement": "A task scheduled with a delay runs exactly once, in the first executor tick whose time has reached schedule time + delay, unless cancelled before; never earlier, never again.", "quantifier": "all tick time sequences, all mixes of other scheduled work, all delays", "why_tests_cant": "Tick sequences are unbounded and irregular.", "anchors": ["crates/rx_core_scheduler_ticking/src/work/work_once_delayed.rs", "crates/rx_core_scheduler_ticking/src/ticking_executor.rs"]}
{"id": "C24", "title": "Repeating work fires once per elapsed period", "statement": "After any sequence of ticks, a repeating task with a positive interval has fired exactly floor(elapsed/interval) times (plus one when starting immediately), capped per tick by its configured maximum, and never before its time; with a zero interval a tick still terminates.", "quantifier": "all intervals, per-tick caps and tick sequences", "why_tests_cant": "Arithmetic over all durations and tick patterns.", "anchors": ["crates/rx_core_scheduler_ticking/src/work/work_repeating.rs"]}
{"id": "C25", "title": "The executor ticks every live task once per tick, in scheduling order, and never after cancellation", "statement": "In each tick every live (scheduled, not finished, not cancelled) task is ticked exactly once and in scheduling order; a finished task is never ticked again; a task cancelled before the tick begins is not ticked.", "quantifier": "all task behaviours, all histories of schedule/cancel/tick", "why_tests_cant": "All histories and task behaviours, including tasks scheduled from inside tasks.", "anchors": ["crates/rx_core_scheduler_ticking/src/ticking_executor.rs: tick_to, drain, tick_scheduled"]}
{"id": "C26", "title": "Cancelling one invoked task leaves the others alone", "statement": "Cancelling a pending invocation prevents only that invocation; all other pending invocations still run.", "quantifier": "all sets of invoked tasks and cancellations", "why_tests_cant": "All sets and orders.", "anchors": ["crates/rx_core_scheduler_ticking/src/ticking_executor.rs: execute_invoked/CancelInvoked"]}
{"id": "C27", "title": "Executor time never goes backwards", "statement": "The time tasks observe never decreases, whatever times and deltas the executor is ticked with.", "quantifier": "all tick inputs", "why_tests_cant": "All inputs.", "anchors": ["crates/rx_core_scheduler_ticking/src/tick.rs", "crates/rx_core_scheduler_ticking/src/ticking_executor.rs: tick_to, tick"]}
{"id": "C28", "title": "delay: same values, same order, shifted in time", "statement": "delay(d) delivers every value exactly once, in source order, in the first tick not before push time + d, completes only after the last delayed value was delivered, and forwards errors immediately dropping what is pending.", "quantifier": "all interleavings of pushes, terminals and ticks, all d", "why_tests_cant": "Irregular tick patterns.", "anchors": ["crates/rx_core_operator_delay/src/delay_subscriber.rs"]}
{"id": "C29", "title": "debounce_time: only values followed by silence", "statement": "debounce_time(d) delivers a value only when no other value was pushed for d after it, delivers it exactly once in the first tick at or after its deadline, and on completion flushes the pending value before completing.", "quantifier": "all interleavings of pushes, terminals and ticks, all d", "why_tests_cant": "Irregular tick patterns relative to pushes.", "anchors": ["crates/rx_core_operator_debounce_time/src/debounce_time_subscriber.rs"]}
{"id": "C30", "title": "throttle_time: no two values closer than the window, trailing value not lost", "statement": "throttle_time(d) with a leading edge delivers a value pushed outside a window immediately and starts a window; with a trailing edge the latest value pushed during a window is delivered when the window ends; values are delivered in push order.", "quantifier": "all interleavings of pushes and ticks, all d, all edge settings", "why_tests_cant": "Tick times relative to deadlines range over everything.", "anchors": ["crates/rx_core_operator_throttle_time/src/throttle_time_subscriber.rs"]}
{"id": "C31", "title": "observe_on: same sequence on the scheduler's ticks", "statement": "observe_on delivers exactly the pushed values, in order, each in the next tick, and completes after the last.", "quantifier": "all interleavings of pushes, terminals and ticks", "why_tests_cant": "All interleavings.", "anchors": ["crates/rx_core_operator_observe_on/src/observe_on_subscriber.rs"]}
{"id": "C32", "title": "fallback_when_silent: one value per tick, fallback only when silent", "statement": "In each tick the observer gets the latest value pushed since the previous tick, or the fallback if none was pushed; a value pushed before completion is not lost.", "quantifier": "all interleavings of pushes, terminals and ticks", "why_tests_cant": "All interleavings.", "anchors": ["crates/rx_core_operator_fallback_when_silent/src"]}
{"id": "C33", "title": "interval, timer and iterator_on_tick", "statement": "interval emits 0,1,2,… without gaps or repeats, one for each elapsed period; timer emits once at the first tick at or after its time and completes; iterator_on_tick emits the iterator's items in order, one every n ticks, and completes right after the last item, also when the iterator is empty.", "quantifier": "all durations, tick patterns and iterators", "why_tests_cant": "Irregular ticks; all lengths including 0 and 1.", "anchors": ["crates/rx_core_observable_interval/src", "crates/rx_core_observable_timer/src", "crates/rx_core_observable_iterator_on_tick/src"]}
{"id": "C34", "title": "concat/merge (concurrent flattening): limit, order, completion", "statement": "At most the configured number of inner observables is subscribed at a time; inner observables are subscribed in arrival order, each exactly once, as soon as a slot frees up; the result completes exactly when the outer and all inners have completed; the first error ends it. With limit 1 the values are the concatenation.", "quantifier": "all limits, all interleavings of outer values and inner signals (next/complete/error/unsubscribe)", "why_tests_cant": "All interleavings of unboundedly many inner observables.", "anchors": ["crates/rx_core_subscriber_higher_order_concurrent/src/concurrent_subscriber.rs", "crates/rx_core_subscriber_higher_order/src"]}
{"id": "C35", "title": "switch: only the latest inner observable is heard", "statement": "switch_map/switch_all forward values of the most recently started inner observable only, unsubscribe the previous one when a new one starts, and complete exactly when the outer and the current inner have completed.", "quantifier": "all interleavings of outer and inner signals", "why_tests_cant": "All interleavings.", "anchors": ["crates/rx_core_subscriber_higher_order_switch/src/switch_subscriber.rs"]}
{"id": "C36", "title": "exhaust: inner observables are ignored while one is active", "statement": "exhaust_map/exhaust_all subscribe an inner observable only if none is active, forward exactly the values of those subscribed, complete when the outer and the active inner have completed, and are closed once the downstream closes.", "quantifier": "all interleavings of outer and inner signals, and of downstream closing", "why_tests_cant": "All interleavings.", "anchors": ["crates/rx_core_subscriber_higher_order_exhaust/src/exhaust_subscriber.rs"]}
{"id": "C37", "title": "catch: the replacement continues the sequence", "statement": "catch forwards the source until its error, then everything of the replacement; the error itself is never visible; values keep their order and the grammar holds.", "quantifier": "all sources and replacement observables", "why_tests_cant": "All sequences.", "anchors": ["crates/rx_core_operator_catch/src/catch_subscriber.rs"]}
{"id": "C38", "title": "retry: number of attempts and final error", "statement": "retry(n) subscribes to the source at most n+1 times, passes all values of all attempts in order, delivers the last error after n+1 failures and no error otherwise; a source that stays open or succeeds within its attempts is left alone.", "quantifier": "all n and all source behaviours per attempt (synchronous or asynchronous failures)", "why_tests_cant": "All combinations of attempts and synchrony.", "anchors": ["crates/rx_core_operator_retry/src/retry_observable.rs", "crates/rx_core_operator_retry/src/retry_subscriber.rs"]}
{"id": "C39", "title": "zip pairs by index and completes when a source is exhausted", "statement": "zip emits the pair of the i-th values of both sources exactly when both have emitted their i-th value, and completes as soon as one source has finished and none of its values are left unpaired.", "quantifier": "all interleavings of the two sources' signals", "why_tests_cant": "Interleavings.", "anchors": ["crates/rx_core_observable_zip/src", "crates/rx_core_notification_store/src", "docs/contracts.md: rx_contract_immediate_completion"]}
{"id": "C40", "title": "combine_latest emits the pair of latest values", "statement": "combine_latest emits, at every value after both sources have emitted at least once, the pair of the most recent values; it errors on the first error; it completes when both have completed, or at once when one finishes without having emitted.", "quantifier": "all interleavings of the two sources' signals", "why_tests_cant": "Interleavings.", "anchors": ["crates/rx_core_observable_combine_latest/src", "docs/contracts.md: rx_contract_immediate_completion"]}
{"id": "C41", "title": "combine_changes, join and with_latest_from", "statement": "combine_changes emits on every value of either source the pair of latest known values tagged with what changed; join emits one pair of last values when both completed; with_latest_from emits for each source value once the other has emitted, the pair with its latest.", "quantifier": "all interleavings of the two sources' signals", "why_tests_cant": "Interleavings.", "anchors": ["crates/rx_core_observable_combine_changes/src", "crates/rx_core_observable_join/src", "crates/rx_core_operator_with_latest_from/src"]}
{"id": "C42", "title": "connectable/share: one source subscription, reference counted", "statement": "A connectable subscribes the source at most once while connected; all subscribers share the connection; with ref counting the connection is dropped exactly when the last subscriber leaves, for each connection in turn.", "quantifier": "all histories of connect/subscribe/unsubscribe/source signals, all options", "why_tests_cant": "All histories.", "anchors": ["crates/rx_core_observable_connectable/src", "crates/rx_core_operator_share/src"]}
{"id": "C43", "title": "Bounded notification queues", "statement": "A zip source queue never holds more than the configured number of values; on overflow drop-oldest keeps exactly the most recent ones and ignore-next the earliest ones, in order; non-value notifications are never dropped.", "quantifier": "all capacities and push/pop histories", "why_tests_cant": "All histories.", "anchors": ["crates/rx_core_notification_store/src/notification_queue.rs"]}
{"id": "C44", "title": "Subscriber life-cycle state", "statement": "The life-cycle flags of a tracked subscriber always describe its actual history: closed iff an error, complete or unsubscribe happened, primed iff a value was seen, and never both completed and errored.", "quantifier": "all notification histories accepted by the guards", "why_tests_cant": "All histories.", "anchors": ["crates/rx_core_common/src/subscribers/subscriber_state.rs"]}
{"id": "C45", "title": "Notification conversions", "statement": "Converting calls to notification values and back is lossless, and pushing a notification has exactly the effect of the corresponding call.", "quantifier": "all notifications and all destinations", "why_tests_cant": "Universal.", "anchors": ["crates/rx_core_common/src/signals/notification_observer.rs", "crates/rx_core_common/src/signals/notification_subscriber.rs", "crates/rx_core_common/src/signals/notification_observer_terminal.rs"]}
{"id": "C46", "title": "ADSR envelope phases", "statement": "For any sequence of ticks and activations the envelope goes through attack, decay, sustain while active and release then none after deactivation, in that order, with each phase lasting its configured time, and the reported transition flags name exactly the phases entered.", "quantifier": "all envelopes, all tick/activation sequences", "why_tests_cant": "Irregular ticks and activations.", "anchors": ["crates/rx_core_operator_adsr/src/adsr/adsr_envelope_state.rs", "crates/rx_core_operator_adsr/src/model/adsr_envelope_phase_transition.rs"]}
{"id": "C47", "title": "A finished subject is frozen", "statement": "A value pushed into a completed, errored or unsubscribed subject has no effect on any subscriber, present or future.", "quantifier": "all subject kinds, all histories before and after", "why_tests_cant": "the effect shows only for a later subscriber, after any of unboundedly many histories", "anchors": ["crates/rx_core_subject_publish/src/publish_subject.rs:172-213", "crates/rx_core_subject_behavior/src/behavior_subject.rs:64-77", "crates/rx_core_subject_replay/src/replay_subject.rs:64-78", "crates/rx_core_subject_async/src/async_subject.rs:87-113"]}
{"id": "C48", "title": "Nothing is told after an unsubscription (time operators)", "statement": "After the subscription of delay, observe_on, debounce_time, throttle_time, fallback_when_silent, interval, timer or iterator_on_tick is unsubscribed, the observer is given no further value.", "quantifier": "all histories of pushes, terminals, ticks and other tasks", "why_tests_cant": "the offending value comes from work scheduled any time before", "anchors": ["crates/rx_core_operator_delay/src/delay_subscriber.rs:134-148", "crates/rx_core_operator_observe_on/src/observe_on_subscriber.rs:131-145", "crates/rx_core_operator_debounce_time/src/debounce_time_subscriber.rs:136-150", "crates/rx_core_operator_throttle_time/src/throttle_time_subscriber.rs:240-269"]}
{"id": "C49", "title": "throttle_time never panics", "statement": "Whenever the scheduled closure of throttle_time runs, its deadline is set, so that the expect at throttle_time_subscriber.rs:93 does not fail.", "quantifier": "all histories of pushes, terminals and ticks, all edge settings", "why_tests_cant": "depends on the order of tasks within one tick", "anchors": ["crates/rx_core_operator_throttle_time/src/throttle_time_subscriber.rs:86-151"]}
{"id": "C51", "title": "Combining observables leave a closed destination alone", "statement": "zip, combine_latest, combine_changes, join and with_latest_from make no call on a destination that has been told its end or has closed itself.", "quantifier": "all interleavings of the two sources' signals, all destinations", "why_tests_cant": "depends on when the destination closes itself and on which calls were deferred", "anchors": ["crates/rx_core_observable_join/src/join_subscriber.rs:77-88", "crates/rx_core_observable_zip/src/zip_subscriber.rs:111-144", "docs/contracts.md:280-345"]}
{"id": "C52", "title": "Combining observables do not end too early", "statement": "zip, combine_latest, combine_changes, join and with_latest_from complete or unsubscribe their destination only when no continuation of the two sources could make them emit a further value.", "quantifier": "all interleavings of the two sources' signals, all continuations", "why_tests_cant": "quantifies over all continuations", "anchors": ["docs/contracts.md: rx_contract_do_not_complete_until_necessary", "crates/rx_core_observable_combine_latest/src/combine_latest_subscriber.rs:73-93", "crates/rx_core_observable_zip/src/zip_subscriber.rs:80-98"]}
{"id": "C50", "title": "Flattening operators stop at the end", "statement": "Once the destination of concat/merge, switch or exhaust has been told its end, was unsubscribed or has closed itself, no further inner observable is subscribed to, and all that were are unsubscribed.", "quantifier": "all interleavings of outer and inner signals, all destinations, all limits", "why_tests_cant": "depends on which inner observables are waiting or running at the moment of the end", "anchors": ["crates/rx_core_subscriber_higher_order_concurrent/src/concurrent_subscriber.rs:48-62", "crates/rx_core_subscriber_higher_order_concurrent/src/concurrent_subscriber.rs:146-180", "crates/rx_core_subscriber_higher_order_switch/src/switch_subscriber.rs:55-95", "crates/rx_core_subscriber_higher_order_exhaust/src/exhaust_subscriber.rs:56-94"]}
{"id": "C53", "title": "Flattening operators end and do not panic", "statement": "For every history in which the outer observable keeps the observer contract, concat/merge, switch and exhaust return from every call without hitting a debug assertion or a counter underflow.", "quantifier": "all interleavings of outer and inner signals, with arbitrarily many calls made during the subscription, all destinations, all limits", "why_tests_cant": "nested synchronous subscriptions of any depth", "anchors": ["crates/rx_core_subscriber_higher_order/src/higher_order_subscriber_state.rs", "crates/rx_core_subscriber_higher_order/src/higher_order_subscriber_inner.rs:69-130"]}
{"id": "C54", "title": "Source observables", "statement": "just, iter, empty, throw and closed give the pipeline they are subscribed with exactly the values and the ending they stand for, as far as the pipeline wants them, and release everything before subscribe() returns an inert subscription. iter leaves an endless iterator as soon as the pipeline is closed. never stays open until it is unsubscribed or dropped and then runs every teardown once. create runs its producer once and its calls act on the pipeline. deferred calls its creator once per subscription. A closed subscription runs an added teardown at once and a dropped one releases what it holds.", "quantifier": "all pipelines of operators, all iterators (also endless), all producers, all sequences of calls on the returned subscription", "why_tests_cant": "endless iterators, arbitrary producers that look at is_closed, arbitrary pipelines", "anchors": ["crates/rx_core_observable_just/src/just_observable.rs:36-48", "crates/rx_core_observable_iterator/src/iterator_observable.rs:39-58", "crates/rx_core_observable_create/src/create_observable.rs:51-62", "crates/rx_core_observable_never/src/never_observable.rs:17-26", "crates/rx_core_subscription_inert/src/inert_subscription.rs:12-43", "crates/rx_core_common/src/subscriptions/subscription_shared.rs:99-108"]}
{"id": "C55", "title": "Shared subscription, threads and re-entrance", "statement": "However the threads that use clones of a SharedSubscription are interleaved and whatever its teardowns do with the clones they hold: teardowns run in the order they were stored, each at most once, and only after unsubscribe() was called or every clone was dropped; the notification queue holds at most one notification and its depth guard is never hit; when everybody has finished after an unsubscribe() everything stored has run; the deferred state is never dropped dirty; nobody waits for ever.", "quantifier": "all numbers of threads, all their programs, all teardown bodies, all interleavings", "why_tests_cant": "thread interleavings and re-entrant teardowns cannot be enumerated", "anchors": ["crates/rx_core_common/src/subscriptions/subscription_shared.rs", "crates/rx_core_common/src/subscriptions/subscription_data.rs:50-90", "crates/rx_core_common/src/subscribers/subscriber_arc_mutex.rs:100-116"]}
{"id": "C56", "title": "Observables that poll the Bevy world", "statement": "The message, keyboard and resource observables give their destination, in every tick and only in ticks, what the world shows: messages in the order written, each at most once, and all of them if there is a tick between any two updates; the keys that are down, or went down or up since the last clear, each once; a resource's value when it changed or was added. They forward unsubscribe at once, give nothing after it, do not complete or fail, and do not panic. A destination that unsubscribes in answer to a value is given no more.", "quantifier": "all histories of ticks, world changes and unsubscribes, all destinations, all other tasks on the scheduler, all iteration orders of the key set", "why_tests_cant": "arbitrary interleavings of ticks, updates, clears and resource changes; unspecified set order; re-entrant destinations", "anchors": ["crates/rx_bevy_observable_message/src/message_subscription.rs:23-61", "crates/rx_bevy_observable_keyboard/src/keyboard_subscription.rs:23-68", "crates/rx_bevy_observable_resource/src/resource_subscription.rs:34-91"]}
{"id": "C57", "title": "Subscriptions made through Bevy commands", "statement": "Every step of a subscription made with commands.subscribe happens at most once and in order. A destination that is subscribed and not over sits in a SubscriptionComponent on an entity that exists; despawning that entity ends it, ending it despawns the entity in the next run of the executor, and entities without a subscription are cleaned up in Last. If the target has an observable the subscription is made at once; otherwise it is retried in First and within three runs it is either made or its destination is unsubscribed. A retry that finds the observable works, and a subscription unsubscribed while it waits is not made. At the end of the application every subscription is ended.", "quantifier": "all histories of subscribe, despawn and insert commands, endings of sources, and runs of the First and Last systems, in any order", "why_tests_cant": "any number of subscriptions and frames, any order of commands and systems", "anchors": ["crates/rx_bevy_common/src/observable/command_subscribe.rs:80-103", "crates/rx_bevy_common/src/observable/subscribe_observer_satellite.rs:58-112", "crates/rx_bevy_common/src/subscription/subscribe_event.rs:44-88", "crates/rx_bevy_common/src/subscription_component.rs:37-61", "crates/rx_bevy_common/src/scheduler/subscribe_retry_plugin.rs:32-45", "crates/rx_bevy_common/src/scheduler/rx_plugin.rs:36-58"]}
{"id": "C58", "title": "Concat and merge as functions of what they hear", "statement": "Whatever the destination does, what the concurrent subscriber (concat_all, merge_all, concat_map, merge_map, concat, merge) tells it is exactly: the values heard from the inner observables in the order in which they are heard, then the first error, or completion once the outer observable and all inner ones have completed, cut after the call with which the destination closes. With a limit of one this is the concatenation of the inner observables in the order of arrival. Every observable that arrives while the destination is open and every call of a running inner observable is heard. If all inner observables are over when they have been subscribed to, concat and merge with any limit (0 counts as 1) do not panic and give the concatenation.", "quantifier": "all histories in which no inner observable unsubscribes its subscriber without completing, all limits, all destinations that close themselves at any time, all lists of observables", "why_tests_cant": "any number of observables, any interleaving of their calls, any limit, any point at which the destination closes", "anchors": ["crates/rx_core_observable_concat/src/concat_observable.rs:46-73", "crates/rx_core_observable_merge/src/merge_observable.rs:28-79", "crates/rx_core_subscriber_higher_order_concurrent/src/concurrent_subscriber.rs:48-263", "crates/rx_core_subscriber_higher_order/src/higher_order_subscriber_inner.rs:69-154"]}
{"id": "C59", "title": "subscribe_on subscribes to the source once, when due, and then mirrors it", "statement": "The source is subscribed to at most once, in a tick of the scheduler, not before the time of the subscription plus the delay, and only if the destination is still open; every tick that ends when it is due leaves it subscribed to. What the source says while being subscribed to is passed on before anything else happens; everything it says from then on is passed on at once, so the destination while open was told exactly that. Once the destination is closed no subscription to the source is made any more.", "quantifier": "all delays, all sources, all histories of calls and ticks, all other tasks on the scheduler, all destinations that close themselves and use the scheduler", "why_tests_cant": "any number and spacing of ticks, any other tasks scheduling and cancelling in between, any point at which the destination closes", "anchors": ["crates/rx_core_operator_subscribe_on/src/subscribe_on_subscription.rs:35-84", "crates/rx_core_operator_subscribe_on/src/subscribe_on_observable.rs:44-68"]}
{"id": "C60", "title": "EntityDestination and ResourceDestination hand over everything in order in the next tick", "statement": "An entity (or a resource's writer) that is the destination of a subscription gets what the observer was told, in the same order and nothing twice, only in ticks of the scheduler and only while it exists; if it exists all along, it got everything by the end of every tick. What is pending in a tick in which it does not exist is lost. After the subscription was unsubscribed it gets nothing.", "quantifier": "all histories of calls, spawns and despawns between ticks, and ticks, all other tasks on the scheduler (which may call the observer within the tick)", "why_tests_cant": "any interleaving of calls within and between ticks, despawns and respawns", "anchors": ["crates/rx_bevy_common/src/observer/entity_destination.rs:52-103", "crates/rx_bevy_common/src/observer/resource_destination.rs:49-100"]}
{"id": "C61", "title": "EventObservable listens from the first tick on and leaves no entity behind", "statement": "After the first tick following the subscription an entity of the world (the satellite) listens; the destination is told exactly the events triggered on the observed entity from then on, in order, and completion when that entity is despawned (at once if it is gone already when listening starts), until it closes or is unsubscribed. At most one satellite is spawned, it is not despawned while the destination is open, and none exists after the tick following the closing of the destination. Every event triggered on the entity after the subscription is heard. Nothing that other users of the scheduler do under ids of their own makes a satellite stay.", "quantifier": "all histories of triggering, despawning, unsubscribing and ticks, all other tasks on the scheduler (which may do the same within a tick), all destinations that close themselves and use the scheduler", "why_tests_cant": "any interleaving of unsubscribing with the two tasks and the queued commands, in and between ticks", "anchors": ["crates/rx_bevy_observable_event/src/event_subscription.rs:33-86", "crates/rx_bevy_observable_proxy/src/proxy_subscription.rs:26-68", "crates/rx_bevy_common/src/subscription/subscription_satellite.rs:38-63", "crates/rx_bevy_common/src/scheduler/work/work_despawn_entity.rs:24-35", "crates/rx_core_common/src/subscriptions/teardown.rs:84-96"]}
{"id": "C62", "title": "A destination that panics is not called again and is released", "statement": "Once a call on a destination behind a shared lock (Arc<Mutex>, Arc<RwLock>, Weak<Mutex>, SharedSubscriber) has panicked, its observer is told nothing any more. The next call on any clone unsubscribes it, and dropping the last strong clone does so in any case. No teardown is executed twice, and when the destination is closed all of them have been executed, whatever panics. After unsubscribing a SharedSubscriber, its destination has been released.", "quantifier": "all observers and teardowns that panic at any point, all histories of calls on any number of clones, strong and weak, by any thread (one thread for SharedSubscriber)", "why_tests_cant": "any point at which the observer or a teardown panics, any order of calls after it", "anchors": ["crates/rx_core_common/src/subscribers/subscriber_arc_mutex.rs:51-110", "crates/rx_core_common/src/subscribers/subscriber_arc_rw_lock.rs:52-109", "crates/rx_core_common/src/subscribers/subscriber_arc_weak_mutex.rs:54-146", "crates/rx_core_common/src/subscribers/subscriber_shared.rs:57-424", "crates/rx_core_common/src/subscribers/subscriber_observer.rs:35-86", "crates/rx_core_common/src/subscriptions/subscription_data.rs:46-90"]}
{"id": "C63", "title": "switch and exhaust, and the map operators, as functions of what they are given", "statement": "What the destination of switch and exhaust is told is a function of what the outer and the inner observables do: values of the inner observable listened to, as they come; the first error of it or of the outer one; the end when the outer one and the one listened to are over (completion, or unsubscription if the last one unsubscribes its subscriber without completing). switch listens to the latest, exhaust to the one that arrives while there is none. switch_map, exhaust_map, concat_map and merge_map are their mapper, called once with each outer value in order, followed by the flattening; the error mapper is used for the first error of the outer observable.", "quantifier": "all histories of outer and inner calls (also outside of the contract), all destinations, all mappers with state", "why_tests_cant": "interleavings of any number of inner observables that call synchronously and later", "anchors": ["crates/rx_core_subscriber_higher_order_switch/src/switch_subscriber.rs", "crates/rx_core_subscriber_higher_order_exhaust/src/exhaust_subscriber.rs", "crates/rx_core_subscriber_higher_order_map/src/higher_order_map_subscriber.rs", "crates/rx_core_subscriber_higher_order_all/src/higher_order_all_subscriber.rs"]}
{"id": "C64", "title": "The values of the ADSR envelope", "statement": "While the envelope is active its value is the attack curve from 0 to 1, then the decay curve from 1 to the sustain volume, then the sustain volume (clamped to [0, 1]), as a function of the time since the activation (in which the first delta after a restart from the release phase is not counted, see C46); the curves start at position 0. After the deactivation it is the release curve from the value of the last active frame to 0, then 0. In the phase none it is 0. The length of a phase is never divided by zero. A value is NaN or between 0 and 1; it is a number if the curves give numbers, the sustain volume is not NaN and the lengths are finite as f32, also for an envelope that changes from frame to frame.", "quantifier": "all envelopes, all easing curves, all frame sequences; all f32 values including infinities, subnormals and NaN", "why_tests_cant": "all float values and frame times, and envelopes changed while running", "anchors": ["crates/rx_core_operator_adsr/src/adsr/adsr_envelope.rs:33-133", "crates/rx_core_operator_adsr/src/adsr/adsr_envelope_state.rs:35-85"]}
{"id": "C65", "title": "The test helpers report what happened", "statement": "The notification collector keeps all notifications in order, split behind the first unsubscription; its counts, look-ups and assertions are those of that list. The mock observer records every call, also after it is closed, counts a drop as an unsubscription if it is open, and executes its teardowns once. The harness' destination takes the given number of values and then completes. The final assertion of the harness passes exactly if the last notification is the given one and the subscription is closed and the three tracked teardowns were executed. For every pipeline and every history, a pipeline that ends in a real observer does the same as one that ends in a mock, and the observer is told what the mock has recorded up to the first terminal notification or unsubscription.", "quantifier": "all notification sequences, all pipelines of operators, all call histories", "why_tests_cant": "these are what all other tests rely on; their own tests are two examples", "anchors": ["crates/rx_core_testing/src/notification_collector.rs:47-443", "crates/rx_core_testing/src/mock_observer.rs", "crates/rx_core_testing/src/harness/test_harness.rs:149-357", "crates/rx_core_testing/src/tracked_teardown.rs", "crates/rx_core_testing/src/multi_round_notification_collector.rs:47-60"]}
{"id": "C66", "title": "What a panic of one subscriber does to a subject", "statement": "Until a subscriber panics, a subject behaves as if nobody could. In the call in which one panics first, every subscriber is told the beginning of what it would be told otherwise, and then at most that it is unsubscribed. If the panic passed the locked table of subscribers, nobody who was subscribed is told a value, an error or a completion ever again; those still in the table are not unsubscribed either, neither by the subject nor by their subscriptions; a value is last told to those before the panicking one in the order of the iteration. Later calls neither panic nor deadlock, unless a new subscriber makes them, and the subject reports being closed as if they had been carried out; the values pushed stay in its queue. A new subscriber is told the stored values and the end, and nothing afterwards. Dropping the subject and the subscriptions unsubscribes every open subscriber once.", "quantifier": "all call sequences, all reactions and panics of all subscribers, all iteration orders, all four kinds of subject", "why_tests_cant": "no test lets a subscriber of a subject panic, and the effects depend on where in the iteration and in the queue it happens", "anchors": ["crates/rx_core_subject_publish/src/multicast.rs:45-196", "crates/rx_core_subject_publish/src/multicast.rs:198-290", "crates/rx_core_subject_publish/src/publish_subject.rs:60-299", "crates/rx_core_subject_publish/src/multicast_subscription.rs:70-118"]}
{"id": "C67", "title": "How the combining observables hold and release their sources", "statement": "zip, combine_latest, combine_changes and join subscribe to both sources. If both sources keep the observer contract, nothing panics, whatever the destination and the caller do meanwhile. The calls of a source arrive in order and none is lost until its subscription is released; afterwards only unsubscriptions arrive. The destination is told what C39 to C41 say for these calls, and at most one unsubscription more, when it is dropped while open. While the destination is open no subscription is released but those that were already closed when they were returned. Once the destination is closed, both subscriptions have been released exactly once, no source has its subscriber any more and the destination has been freed. Unsubscribing the result tells an open destination exactly one unsubscription. Dropping the result has no effect.", "quantifier": "all behaviours of both sources while they are subscribed to and later, all reactions of the destination including calls made by sources and unsubscriptions while it is told something, all actions of the caller, all destinations that close themselves", "why_tests_cant": "the tests use sources that emit when told to and check single sequences; releases in the middle of a call, deferred unsubscriptions and the freeing of the shared subscriber depend on the interleaving", "anchors": ["crates/rx_core_observable_zip/src/zip_observable.rs:64-98", "crates/rx_core_observable_combine_latest/src/combine_latest_observable.rs:56-86", "crates/rx_core_observable_combine_changes/src/combine_changes_observable.rs:56-87", "crates/rx_core_observable_join/src/join_observable.rs:67-97", "crates/rx_core_common/src/subscribers/subscriber_shared.rs:202-335", "crates/rx_core_common/src/subscriptions/subscription_shared.rs:90-217"]}
{"id": "C68", "title": "delay, observe_on and debounce_time in a feedback loop", "statement": "The destination of delay, observe_on or debounce_time may call the operator's source while the operator's task tells it something. What C28, C31 and C29 say about what the destination is told, and when, still holds for the calls the source makes, including those made by the destination: delay passes each value on at the first tick at which it is due, observe_on in the next run of the scheduler, debounce_time if no other follows it in time; nothing is told after the end; a completion follows when all values were passed on; an error of the source while the destination is open is passed on before anything else happens, except that the source may be unsubscribed in between. Nothing panics other than the scheduler's depth limit.", "quantifier": "all sources, destinations, other tasks of the scheduler, answers of the destination (any calls on the source as a function of all it was told), delays and histories of calls and ticks in which the scheduler neither panics nor runs out of fuel", "why_tests_cant": "the tests have no destination that pushes into the source of its own operator; which calls are deferred while the destination is locked, and in which order counter, queue and lock are used, only shows there", "anchors": ["crates/rx_core_operator_delay/src/delay_subscriber.rs:60-150", "crates/rx_core_operator_observe_on/src/observe_on_subscriber.rs:52-146", "crates/rx_core_operator_debounce_time/src/debounce_time_subscriber.rs:60-152", "crates/rx_core_common/src/subscribers/subscriber_shared.rs:35-424"]}
{"id": "C69", "title": "A publish subject used by several threads", "statement": "Any number of threads may push values, end, subscribe to and unsubscribe from clones of one publish subject at the same time. There is one order in which everything is told: each subscriber hears a contiguous part of it, values and then at most one end; the values of one thread are told in the order in which it pushed them, none twice. When all have returned, every value pushed while the subject was open was told to every subscriber whose subscription had been returned before and that is still open; every subscription that was dropped or unsubscribed is closed; if the subject has ended, with an end that is the same for all, all its subscribers are closed. Who subscribes hears nothing that was told or deferred before it began to, and once the subject is closed nothing is heard of pushes that begin later. No interleaving panics.", "quantifier": "all numbers of threads, programs of operations, interleavings of their steps, orders in which the table is iterated, and subscribers that close themselves depending on what they were told", "why_tests_cant": "the tests use one thread; which interleaving leaves a notification in the queue depends on the instants at which try_lock and the queue are looked at", "anchors": ["crates/rx_core_subject_publish/src/publish_subject.rs:74-269", "crates/rx_core_subject_publish/src/multicast.rs:28-352", "crates/rx_core_subject_publish/src/multicast_subscription.rs:57-118"]}
{"id": "C70", "title": "Behavior and replay subjects used by several threads", "statement": "Any number of threads may push values, end, subscribe to and unsubscribe from clones of one behavior or replay subject at the same time. Every destination is first greeted, unless the subject has an error, with what was stored at some moment: the last value, or the last values up to the capacity. Of what each thread pushes it hears after that, in order, only values stored later, or the one the thread had stored last; values and then at most one end, a contiguous part of the one order in which everything is told. At rest everything pushed while the subject was open is stored, and told to all who had their subscription before it was stored, unless it stays in the queue; if only one thread pushes, they were told last what the behavior subject stores. Not so: that a destination hears no value twice, or is never left behind what is stored when it subscribes during a push; that with two threads pushing the value stored is the one told last, or replayed in the order told.", "quantifier": "all numbers of threads, programs of operations, interleavings of their steps, initial values, capacities, and subscribers that close themselves depending on what they were told", "why_tests_cant": "the tests use one thread; which value is missed or heard twice depends on the instants at which the cell is read between storing and telling", "anchors": ["crates/rx_core_subject_behavior/src/behavior_subject.rs:59-106", "crates/rx_core_subject_replay/src/replay_subject.rs:59-110", "crates/rx_core_subject_publish/src/publish_subject.rs:74-269"]}
{"id": "C71", "title": "An async subject used by several threads", "statement": "Any number of threads may push values, end, subscribe to and unsubscribe from clones of one async subject at the same time. Every value anybody is told is the reduction of what was stored up to some moment; from each thread everybody hears at most one, and with one thread that completes at most one in all; values and then at most one end. Who begins to subscribe when the subject is closed is greeted, unless there is an error, with the reduction of at least all that was stored before, and hears no value after that. Not so: that one value is told when two threads complete; that who was there and who comes later hear the same; that who subscribes during the completion hears the value.", "quantifier": "all numbers of threads, programs of operations, interleavings of their steps, reducers, and subscribers that close themselves depending on what they were told", "why_tests_cant": "the tests use one thread; what is missed depends on the instants between reading the cell, telling the value and telling the completion", "anchors": ["crates/rx_core_subject_async/src/async_subject.rs:80-152", "crates/rx_core_subject_publish/src/publish_subject.rs:74-269"]}
{"id": "C72", "title": "Observables and subjects as components of entities", "statement": "Components that hold observables and subjects are inserted on entities, removed, despawned with them, sent signals and subscribed to, in any order. If no component is inserted over one of its own type: a signal is pushed exactly once into each subject on the entity that takes it, and nowhere else; a subscription reaches exactly one of the observables with its types, or is tried again if there is none; a subject that goes, by removal or with its entity, is unsubscribed exactly once; and a component has its satellites while it is there and leaves none. In general signals are pushed as often as there were more insertions than removals, and nothing is left of a despawned entity. Not so after an insertion over a component of the same type: signals are pushed twice, subscriptions may be dropped, satellites stay behind and the subject that was overwritten is not unsubscribed; and removing one observable takes the marker of its outputs away from another with the same outputs.", "quantifier": "all histories of insertions, removals, despawns, signals and subscriptions, all entities, component types with their inputs and outputs, and all orders in which the observers of an event run", "why_tests_cant": "the tests insert one component on an entity and remove it once; what a second insertion leaves behind shows later, and depends on the order of the observers", "anchors": ["crates/rx_bevy_common/src/subject/subject_component.rs:39-166", "crates/rx_bevy_common/src/subject/signal_observer_satellite.rs:19-106", "crates/rx_bevy_common/src/observable/observable_component.rs:10-100", "crates/rx_bevy_common/src/observable/subscribe_observer_satellite.rs:23-150", "crates/rx_bevy_common/src/observable/command_subscribe.rs:76-103"]}
{"id": "C73", "title": "fallback_when_silent and throttle_time in a feedback loop", "statement": "The destination of fallback_when_silent or throttle_time, told something by a task of the operator, calls the operator's source back: pushes, ends or unsubscribes it. fallback_when_silent still tells one value each tick, the last pushed since the tick before or the fallback, and passes the end of the source on before anything else happens. throttle_time still tells with the leading edge at once, and otherwise only in ticks values that were pushed, each at most as often as it was pushed; the first value at once; errors before anything else happens; and, if the source ended, nothing is pending once the window after the last push is over. Neither panics, unless (throttle_time) other tasks on the scheduler call the source.", "quantifier": "all histories of calls and ticks, all answers of the destination depending on what it was told, destinations that close themselves and use the scheduler, other tasks, durations, edge settings and fallbacks", "why_tests_cant": "the tests have no destination that calls back; calls made while a task is telling a value are deferred by the shared subscriber, and meet a state of the operator that exists only then", "anchors": ["crates/rx_core_operator_fallback_when_silent/src/fallback_when_silent_subscriber.rs:60-148", "crates/rx_core_operator_throttle_time/src/throttle_time_subscriber.rs:80-269", "crates/rx_core_common/src/subscribers/subscriber_shared.rs:35-424"]}
{"id": "C74", "title": "Operators and a destination that has ended", "statement": "An operator whose source looks at is_closed before each notification tells its destination values, then an error or a completion, then at most unsubscriptions, also if the destination does not protect itself. find, find_index, first and element_at tell at most one value and take(n) at most n, whatever the source does. The callbacks of tap run for the notifications up to the first error or completion and for none after it; on_next passes a value on only if the destination is open after the callback.", "quantifier": "all operators of the modelled set (for the first part: not composed of others), all callbacks, all call histories", "why_tests_cant": "the tests end every pipeline in a destination that ignores what comes after its end, so calls made to a closed destination are invisible; callbacks of operators in the middle of a pipeline see them", "anchors": ["crates/rx_core_operator_find/src/find_subscriber.rs:51-73", "crates/rx_core_operator_is_empty/src/is_empty_subscriber.rs:40-58", "crates/rx_core_operator_count/src/count_subscriber.rs:49-62", "crates/rx_core_operator_tap/src/tap_subscriber.rs:46-61", "crates/rx_core_operator_tap_next/src/tap_next_subscriber.rs:49-63", "crates/rx_core_operator_on_next/src/on_next_subscriber.rs:59-74", "docs/contracts.md:38-130"]}
{"id": "C75", "title": "The observers of the library at the end of a pipeline", "statement": "A pipeline that ends in a FnObserver calls its callbacks for exactly what it would tell a recording observer, each of the error and completion callbacks being still there when it is needed. A DynFnObserver calls the callbacks it was given last, ignores values and completions without a callback and panics exactly at an error without one; a NoopObserver panics exactly at an error. What a PrintObserver prints up to its end is what another observer would be told, with the same teardowns at the same places, and it says at most once that it is unsubscribed.", "quantifier": "all pipelines of modelled operators, all call histories, all callback choices", "why_tests_cant": "the observers have at most a few fixed scenarios as tests, PrintObserver none that looks at its output; that a FnOnce callback is never missing when needed depends on every operator's behaviour after its end", "anchors": ["crates/rx_core_observer_fn/src/fn_observer.rs:51-66", "crates/rx_core_observer_fn/src/dyn_fn_observer.rs:25-83", "crates/rx_core_observer_noop/src/noop_observer.rs:26-34", "crates/rx_core_observer_print/src/print_observer.rs:77-133", "crates/rx_core_common/src/subscribers/subscriber_observer.rs:35-86"]}
{"id": "C76", "title": "The iterator that counts how it is used", "statement": "However iterations over clones of a TrackedIterator are interleaved, each gives what the wrapped iterator gives on its own, and next_count and is_finished of instance i are the number of items taken from, and whether the end was met in, the i-th iteration begun; asking for one not begun panics. If a wrapped iterator panics, every later use of the tracking data panics. After the iterator observable was subscribed to, the count is the number of items its loop took.", "quantifier": "all wrapped iterators (also not fused, endless or panicking), all sequences of operations, all destinations", "why_tests_cant": "the tests of the library read these counters to judge the observables, and three scenarios test the counters themselves; interleavings and panics are not among them", "anchors": ["crates/rx_core_testing/src/tracked_iterator.rs:43-150", "crates/rx_core_observable_iterator/src/iterator_observable.rs:46-52"]}
{"id": "C77", "title": "The subject that drives the tests of operators", "statement": "Whatever is done with a TestSubject and its subscriptions, each destination is called as by a source that keeps the contract: nothing is told to one that says it is closed, and values are followed by at most one end and then only unsubscriptions; it is dropped once, as the last thing, when the subject and the subscription have both let go of it. Subscriptions do not influence each other, except that a later one takes the subject away: an earlier one is told nothing any more, not even that it is unsubscribed. Notifications and is_closed panic exactly if nothing has ever subscribed.", "quantifier": "all destinations, all sequences of subscribing, notifying, asking, unsubscribing, adding teardowns and dropping", "why_tests_cant": "this subject is what the tests of operators are driven with; that it never breaks the contract towards the operator under test is assumed by all of them", "anchors": ["crates/rx_core_testing/src/harness/test_subject.rs:32-140", "crates/rx_core_common/src/subscribers/subscriber_shared.rs:88-98", "crates/rx_core_common/src/subscribers/subscriber_shared.rs:291-306", "crates/rx_core_common/src/subscribers/subscriber_shared.rs:325-424", "crates/rx_core_macro_common/src/derive_subscription.rs:83-89"]}
