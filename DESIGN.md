# Formal model of rx_bevy (rx_core) in Rocq/Coq

The code under `/repo` is read as text; nothing of it is compiled or run. This
file says what is modelled, how each property of `properties.jsonl` is stated
and proved, and what has to be trusted.

## Trusted base

* Coq 8.16.1's kernel (and `vm_compute` for the `Example`s and `_refuted` witnesses).
* What `Print Assumptions` reports below each property theorem (goal: "Closed under
  the global context" everywhere; exceptions would be listed here).
* The reading of the Rust source: every definition of a model cites file and lines
  in `/repo` and says where it simplifies.
* General simplifications, made everywhere unless said otherwise:
  `usize` counters are unbounded `nat`; user callbacks are pure total functions
  (stateful callbacks are given explicit state where it matters); user callbacks
  do not panic; allocation succeeds; lock poisoning (which needs a panic) does not
  occur.

## Layout (`rocq/theories`)

`*Model.v` – executable definitions, no proofs. `*Proofs.v` – lemmas.
`*Spec.v` – the independent specification. `Prop*.v` – property theorems
only, each closed by `exact`, with `Print Assumptions` and an `Example` of a
non-trivial instance.

## Architecture

1. **Subscriber coalgebra** (`Subscr`). A subscriber is a state machine
   `{st; init; step : st -> call -> st * list W; closed : st -> bool}` where calls
   are next/error/complete/unsubscribe/add_teardown/drop and `W` is the type of
   world events (observer notifications, teardown executions, callback effects).
   Rust operators are functions from the downstream subscriber to the upstream-facing
   subscriber, so they are modelled 1:1 as functions `subscriber -> subscriber`.
   The pipeline ends in `ObserverSubscriber` with its `SubscriptionData`.
2. **Operators** (`Ops`). One definition per `*_subscriber.rs`.
3. **Pipelines**: an inductive type of well-typed operator stacks.
4. **Shared subscriber**: re-entrant model (destination reacts with further calls) and
   an interleaving model with threads.
5. **Subjects**: publish with an arbitrary iteration order; behavior, replay, async, provenance on top.
6. **Ticking scheduler/executor** with arbitrary task behaviours, and the concrete works.
7. **Time operators/observables** as state machines over pushes and ticks.
8. **Higher-order subscribers** as state machines over outer and inner signals.
9. **Notification store**, zip, combine_latest, combine_changes, join, with_latest_from.
10. **retry, catch, connectable/share**, life-cycle state, ADSR.
11. **Source observables** on the subscribers of 1-3, and the subscriptions they return.
12. **Shared subscription**: threads as stacks of commands, arbitrary scheduling.
13. **Observables that poll the Bevy world** (messages, keyboard, resources) on the model of time operators;
    their tasks on the shared subscriber of 4.
14. **Subscriptions made through Bevy commands**: subscription entities, retries, clean up.
15. **The concat and merge observables** on the concurrent subscriber of 8.
16. **subscribe_on** on the model of time operators.
17. **Entities and resources as destinations** on the model of time operators.
18. **The entity held by EventObservable and ProxyObservable**: spawned by one task, despawned by an invoked one, on the model of the scheduler.
19. **Destinations that panic** behind shared locks: poisoning, the teardowns lost and kept.
20. **switch_map, exhaust_map, concat_map, merge_map and the _all operators** on the subscribers of 8.
21. **The helpers of the tests** (`rx_core_testing`): notification collector, mock observer, harness destination and final assertion.
22. **Subscribers of a subject that panic**: the functions of 5 with an unwinding panic, and calls on a subject of which the table is poisoned.
23. **The subscriptions of the combining observables** of 9: sources, shared subscriber and returned subscription with who owns whom.
24. **delay, observe_on and debounce_time in a feedback loop**: the operators of 7 with the deferred queue of the shared subscriber of 4.
25. **The publish subject used by several threads**: steps of arbitrarily many threads, interleaved in any way; `try_lock` of the table, the deferred queue, the flags.
26. **The behavior, replay and async subjects used by several threads**: a cell with its own mutex beside the publish subject of 25; the steps on the cell interleave with those of the publish subject.
27. **Observables and subjects as components** (CompModel.v): the hooks on insertion and removal, the satellites they spawn and despawn, what these do on a signal and on a subscription.
28. **fallback_when_silent and throttle_time in a feedback loop** (TimeReMoreModel.v): as 24; their tasks call through the shared subscriber instead of locking the destination themselves.
29. **Observers** (ObsModel.v): FnObserver, DynFnObserver and NoopObserver behind an ObserverSubscriber, and PrintObserver, which is its own subscriber. Callbacks are numbered; a panic is an event, and what the model does after one means nothing. The prefix of PrintObserver is left out; `LDropped` marks the place of its drop and is not printed.
30. **TrackedIterator** (TrackModel.v): any number of iterations over clones, interleaved at will, with the shared counters and the poisoning of their lock; the wrapped iterator is any state machine that gives an item, the end or a panic. The counters are unbounded; one thread.
31. **TestSubject** (TSubjModel.v): the subject, any number of subscriptions made one after another, and what is done with each. Destinations are passive: the subject holds its mutex while it calls one, so one that uses the subject blocks. All destinations are of one type, and no call panics inside one. The shared subscriber is that of SharedModel.v without contention, written again because that one has no teardowns and drops. A second handle of the subject is not distinguished from the first.

## Properties

| id | model | statement and proof |
|----|-------|---------------------|
| C01 | 1–3 | grammar predicate on the trace of the sink; invariant of the sink, lifted through any stack because operators reach the observer only through the sink |
| C02 | 1–3 | closed-absorbing and silent laws, proved preserved by each operator, induction on stacks |
| C03 | 1–3 | exact teardown log as a function of the call history, for any stack |
| C04 | 1–3 | terminal call closes: law preserved by each operator |
| C05 | 1–3 | drop modelled as the nested Drop glue; log equation |
| C06–C10 | 2 | per operator: running the operator over any lawful downstream on a trace equals running the downstream on the list-level image of the trace |
| C11 | 3 | induction over stacks from C06–C10 |
| C12 | 1–3 | `closed` of the head follows from `closed` of the downstream; law per operator |
| C13 | 2 | expected to be refuted: error is delivered as value and nothing closes |
| C14 | 4 | refinement to an unbounded FIFO work list |
| C15 | 4 | small-step interleaving invariant |
| C16–C18 | 5 | per-subscriber projection of the history |
| C19–C22 | 5 | refinement to projections of the history |
| C47 | 5 | view of a finished subject; expected to be refuted for the subjects that store values |
| C23–C27 | 6 | invariants over histories of ticks; C26 expected to be refuted |
| C28–C33 | 7 | trace specifications with tick times; the throttle, fallback and empty-iterator parts are expected to be refuted |
| C48, C49 | 7 | consequences of the same invariants; refuted for the operators that keep pending work |
| C34–C37 | 8 | invariants over interleavings |
| C50, C53 | 8 | invariants of the command stack; partly refuted |
| C38 | 10 | attempts semantics; expected to be partly refuted |
| C39–C41 | 9 | list-level specs of interleavings; completion of zip and combine_latest expected to be partly refuted |
| C51, C52 | 9 | consequences of the same specs; C51 expected to be partly refuted |
| C42 | 10 | invariants over histories; reset behaviour expected to be partly refuted |
| C43 | 9 | queue invariant |
| C44 | 10 | flags as function of history |
| C45 | 1 | algebraic laws |
| C46 | 10 | phase as function of active time |
| C54 | 11 | equations between a subscription and a call history of the pipeline; adding to a closed `never` and dropping `create` expected to be refuted |
| C55 | 12 | invariants of all interleavings (tokens, mutex, shape of the stacks), a measure for progress; two threads and adding from a teardown expected to be refuted |
| C56 | 13 | one invariant for all three (what is due, as a fold over the trace), then per observable; unsubscribing in answer to a message expected to be refuted |
| C57 | 14 | invariant between state and trace, preserved by every action; what a retry comes to expected to be refuted |
| C58 | 8, 15 | the trace obeys laws (C34 and a few more), from which the calls on the destination follow by induction; symbolic run for synchronous inner observables |
| C59 | 16 | invariant of all runs (one task until the source is subscribed to, none after), lifted as for the time operators; the mirror follows from the trace alone |
| C60 | 17 | invariant of all runs: what is owed is what waits, plus what was lost in the current tick; silence after unsubscribing expected to be refuted |
| C61 | 18 | counting invariant over the scheduler's queue, tasks and invocations (spawn task, despawn task, invocation, cancellation) beside one of the world and its command queue; hearing before the first tick and leaving nothing behind when others cancel invocations expected to be refuted |
| C62 | 19 | invariant: the teardowns added are those executed, those stored and those lost to a panic; what a poisoned lock does follows from it; releasing a SharedSubscriber and executing all teardowns expected to be refuted |
| C63 | 8, 20 | simulation: between two calls the state of the subscriber is that of the specification, until the destination is closed |
| C64 | 10 | the invariant of C46 with the values; order and clamp of floats by case analysis |
| C65 | 1–3, 21 | equations for the collector; simulation between pipelines that end in a mock and in an ObserverSubscriber, preserved by each operator |
| C66 | 22 | simulation with the subject without panics until the first; frame lemmas for calls that find the table locked, by cases of the call |
| C67 | 9, 23 | one invariant for the shared subscriber in use (calls heard and queued, subscriptions held, let go or to be added), kept by releases, the queue and drops; two rounds of the queue suffice after the first |
| C68 | 7, 24 | the invariants of C28, C31 and C29 extended by what is deferred, kept by every nested call; the error of observe_on and values pushed into debounce_time from its own task expected to be refuted |
| C69 | 25 | an invariant per claim, kept by each of the five kinds of step: where each destination joined the common log, what waits before and after its Add, what each thread still carries; the load of stacks, queue and rounds does not grow |
| C70 | 25, 26 | the invariants of C69, which feeding an operation to a thread that has none keeps; one more for each greeted destination: what it may still hear of each thread is what the thread has yet to tell and was stored after the greeting, or last before. Hearing each value once, and having heard what is stored, expected to be refuted |
| C71 | 25, 26 | an invariant of each thread's remaining pushes and completions (every push of the async subject is followed by the completion, so a second finds the subject closed); nobody is added after a greeting, because the subject is closed; all values at hand are reductions of a prefix of what was stored. One value with two completing threads, and the same for early and late destinations, expected to be refuted |
| C72 | 27 | the satellites of an entity and component type are counted: insertions less removals; a component that is there has a reference to a living satellite of each sort. Once each, and nothing left after removal, expected to hold only if no component is inserted over one of its type |
| C73 | 7, 28 | for fallback_when_silent as C68; for throttle_time the operator is related to that of C30 by forgetting what is deferred, so that only the nested calls need an invariant of their own |
| C74 | 2 | a destination that records also the calls made after its end; each operator is polite on an open destination, and what is told is orderly by induction over the calls; for the numbers of values an allowance that only shrinks |
| C75 | 2, 29 | a simulation, lifted once and for all through every operator, between a pipeline ending in one observer and the same pipeline ending in another, where what the second does is a rewriting of what the first does; for "at most once" a supply that only shrinks |
| C76 | 30 | an invariant that ties each iteration, its number and its counters to the history of calls and answers; the loop of the observable by induction on its rounds |
| C77 | 2, 31 | each subscription as a projection of the history; an invariant that gives the calls made on the destination so far |

## Notes on the models

* **Shared subscriber.** The destination never inspects `is_closed` of, or adds teardowns to,
  the shared subscriber while it is being called (the latter deadlocks).
* **Subjects.** One thread (several: see C69–C71). A subscriber is a function from what it was told so far to the
  calls it makes on the subject and whether it closes itself. Behavior, replay and async
  subjects are a `policy`: a stored value and the calls made on the publish subject
  inside. Left out: a subscriber that calls the subject while it is given the stored
  values, before it is in the table (the state `HNested` marks this; in the code such
  a push does not reach the new subscriber); calls made by the teardown of a subscriber
  refused by an unsubscribed subject; a subscriber asking for `is_closed` of, or adding
  a teardown to, its own subscription from its own callback (deadlock).
  Panic and deadlock are explicit states.
* **Scheduler.** Closures are arbitrary functions of their state, the time and a shared
  world, and return requests to the scheduler; they neither panic nor diverge. Time is a
  `nat`: overflow of `Duration` and wrap-around of ids and of the execution counter are
  left out. Dropping a task's closure runs no code (in the code its destructor runs while
  the scheduler is locked). The depth panic and a tick that does not return within the
  fuel are explicit outcomes (`Panic`, `Hang`).
* **Time operators.** One thread. The operator, its source, its destination and any other
  tasks run on the modelled executor. The destination is a function of what it was told; it
  may close itself and use the scheduler, but does not call back into the operator (for delay,
  observe_on and debounce_time see C68, for fallback_when_silent and throttle_time C73). The
  source makes no calls before the subscription and none but `unsubscribe` after its terminal
  call. The work counters are integers (the code's wrap around). Iterators are fused. All
  statements are about runs that neither hit the scheduler's depth limit nor run out of fuel.
  The failing `expect` of throttle_time sets a flag, and the model goes on. For subscribe_on, calls
  of the source before it is subscribed to have no effect, and its subscription's teardown is left out.
* **Entities and resources as destinations.** Whether the entity exists is told by the environment. An event
  counts as delivered when its command is given in the tick; Bevy's applying it later is left out. Resource
  writers do not panic.
* **EventObservable.** One observed entity, one subscription, with cancellation and invocation id 0 of its own;
  others use other ids. Of Bevy it is assumed that commands are applied in order after the scheduler's tick,
  that an observer of an entity hears the events triggered on it, that despawning the entity removes
  the relationship component from the satellite, and so does the spawning of a satellite for an entity
  that does not exist (either runs the teardown of subscription_satellite.rs:50-63). The destination does not
  call back, but may use the scheduler. ProxyObservable uses the same two tasks with
  the subscription entity as satellite; its other half is C57.
* **Panics.** The destination is an ObserverSubscriber; its observer panics or not as a function of what it was
  told, a teardown always or never. Every call on a clone of a lock is one step (it holds the lock throughout), and the
  caller catches the panic. The destination does not call back. `debug_assert` is a flag.
* **Panicking subscribers.** A subscriber makes its calls and then panics or not, as a function of what it was told; the caller
  from outside catches the panic. A subscriber that nothing refers to any more is dropped at the end of the call in which that
  happens, and unsubscribed by that; calls that its teardowns make are left out. Dropping the subject while a panic unwinds is not modelled.
* **Sources.** One thread. An iterator is a function from position to item and does not panic; the
  error and item types that are `Never` in the code are arbitrary. The producer of create() is a
  finite tree of calls and `is_closed` questions. The teardown by which `SharedSubscription::new`
  ties the destination to the shared subscription is empty in the model; why it has no effect is
  said at `into_shared`.
* **Shared subscription.** Any number of threads, each with a finite list of operations; a step
  ends where another thread can notice (taking or releasing the mutex of the data, reading or
  changing the deferred state, running a teardown). A teardown does a finite list of
  operations with a clone it holds. Arc counts are reduced to the number of threads that have
  a clone and the stored teardowns that hold one; a clone dropped by a thread that has another one is
  `OPart`. No thread panics, so the mutex is never poisoned.
* **Polling the world.** The source of the operator is the world: an operation on it is a call.
  Nothing but calls from outside changes it (no systems run during the scheduler's tick), and
  operations after the subscription's `unsubscribe` are not recorded. Bevy's `Messages`,
  `MessageCursor` and `ButtonInput` are modelled after their documentation; what
  `is_resource_changed` says is arbitrary. For destinations that call back, the
  scheduler is left out (`PollReModel`).
* **Subscriptions through commands.** Of Bevy it is assumed that commands are applied one by one, those
  they cause before the next one; that despawning runs the `on_remove` hook; that ids of
  despawned entities do not come back; that inserting on a missing entity fails (by default a panic).
  One output type. An entity's observables are given by the history, so a satellite that is
  left behind when a component is replaced is left out, as is unsubscribing through the
  handle of `as_observable` and a destination that closes itself while it waits.
* **Life-cycle flags, notifications, queue.** The flags are the bits of the code; `None` is the
  panic of a `debug_assert`. A subscriber to push into is four arbitrary methods on a state.
* **ADSR.** Phases, transition flags, the reported time and the output value. f32 is
  `spec_float` of the standard library (`SpecFloat`: exact IEEE 754, round to nearest even; it is
  computable and adds no axiom) with 24 bits of precision; NaN has no payload. Easings are numbers,
  and what an easing curve of bevy_math is, is an arbitrary function (`sample`). Durations do not
  overflow. The operator runs on the model of the time operators; its subtraction of durations sets the
  panic flag when time goes backwards.
* **Test helpers.** A failing assertion is `false`. The tracker of a teardown is the question whether
  it was executed. Locks and printing are left out; `TestSubject` is C77,
  and the mock executor is that of C23-C27.
* **Higher-order subscribers.** One thread. An inner observable makes some calls while it is
  subscribed to, and any others later. The nested calls of the code are a stack of commands
  (`HoModel.step`), so that the order of effects is the order of the code; `None` is a failing
  `debug_assert` or counter underflow. The destination is a function of what it was told; it
  may close itself but does not call back. Subscriptions and teardowns are events of a trace
  (`TArrive`, `TSub`, `TIn`, `TEnd`, `TOut`), and the statements are about this trace alone.
  The mappers of concat_map and the like have any state and do not panic.
* **catch.** As above, with one inner observable, the replacement; its nested calls are nested
  functions (`CatchModel`). `None` is a panic. The mapper is total and does not panic.
* **retry.** One thread. The attempts are numbered; what the source does in each is arbitrary,
  while being subscribed to and later. Its subscription is closed if the destination is; an
  unsubscribed source makes no more calls, and unsubscribes its subscriber after the call it is
  in the middle of. The source is not subscribed to by others meanwhile (the code panics when its
  one source is taken twice). Events of a trace, as above.
* **Connectable observable, share.** One thread. The connector is a publish subject, reduced to
  telling all open subscribers in some order, and latecomers its end; other connectors (behaviour,
  replay) are not modelled. Subscribers may leave while they are told something, but do not
  subscribe, connect or disconnect then. What the source does is arbitrary, while being subscribed
  to and later; a source unsubscribed in the middle of a call unsubscribes its subscriber at once.
  Events of a trace, as above.
* **Combining observables.** A history is the interleaving of the calls of both sources, each
  marked if it was made while the shared subscriber was in use and so deferred. Both sources
  have the same error type. The destination is a function of what it was told. `None` is a
  panic.
* **Subscriptions of the combining observables (C67).** One thread. The two sources are arbitrary:
  what they call while being subscribed to, whether they drop their subscriber, whether they return
  a closed subscription. A source that is released lets go of its subscriber, at the latest when its
  current call returns, and calls nothing after that. The destination may close itself, unsubscribe
  the result and make sources call while it is told something; it runs its finalizers when it
  closes. Reference counts are who is alive: the combining subscriber is freed when both sources
  have dropped theirs. The finalizers of the destination run at the end of the call that closed it.
* **Feedback loops (C68, C73).** As for the time operators; in addition the destination, told something by a task of the
  operator, makes any calls on the operator's source. They reach the operator at once; what the operator tells the locked
  destination meanwhile waits in the queue of the shared subscriber. When the destination both closes itself and makes calls, it
  makes the calls after. The destination does not call back when the source itself is telling it something (the operator's
  subscriber is borrowed then, so the call can only follow, like any other; throttle_time would also hold its own lock).
* **Components (C72).** A subject is a number: that it is pushed, subscribed to and unsubscribed is told, not what it does then.
  Each operation is done with all the commands its hooks queue; what the destinations do in between is a later operation. Bevy's
  part (hooks, relationships, observers, required components) is written from its documentation, as its code is not in /repo. The order of
  the observers of an event is a parameter. An entity is there until it is despawned, and its number is not used again.
* **Threads (C69–C71).** The subjects only. A step is what a thread does between two accesses to shared memory. The mutex of
  the deferred state is held only for an instant each time, so each such use is one step; the memory model is sequential
  consistency (all shared state is behind mutexes). The mutex of the table is modelled with what its holder has yet to do.
  Destinations do not call back and do not panic; telling one of them is one step (its own mutex is only contended by
  `is_closed`, which is one step too); each subscribes once. The order in the table is chosen by the schedule at every
  telling. Nobody waits for the table's mutex: it is only ever taken with `try_lock`, so there is no deadlock to be modelled.
  A failed `debug_assert` is a flag (in a debug build the thread panics there). In C70 and C71 the cell
  is read or written in one step each time; the greeting of a new destination is one step, and does not make it close itself.
