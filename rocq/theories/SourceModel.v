(** The source observables: just, iter, empty, throw, closed, never, create and
    deferred, and the subscriptions they return. No proofs in this file.

    The observer given to subscribe() is upgraded first; what the source then sees is
    a subscriber [D] in its initial state, whose construction has shown [w0 D]. *)
From Verif Require Import Base SubscrModel.
Set Implicit Arguments.

(** What a user supplied producer of create() does with the [&mut dyn Subscriber] it is
    lent: notify it, unsubscribe it, give it teardowns, and ask whether it is closed.
    It cannot drop it. crates/rx_core_observable_create/src/create_observable.rs:20 *)
Inductive prog (I E : Type) : Type :=
| PStop
| PNotify (n : ncall I E) (k : prog I E)
| PAdd (t : list nat) (k : prog I E)
| PAsk (k : bool -> prog I E).
Arguments PStop {I E}.
Arguments PNotify {I E} n k.
Arguments PAdd {I E} t k.
Arguments PAsk {I E} k.

(** The observables. An iterator is the function from position to item, so it may be
    endless; every subscription clones it, so each starts at 0. [SDefer mk]: [mk k] is
    what the creator returns the k-th time it is called. just/iter/empty/never/closed
    have the error type Never and empty/throw/never/closed the item type Never in Rust;
    here they are used at any type. *)
Inductive source (I E : Type) : Type :=
| SJust (v : I)
| SIter (f : nat -> option I)
| SEmpty
| SThrow (e : E)
| SClosed
| SNever
| SCreate (p : prog I E)
| SDefer (mk : nat -> source I E).
Arguments SJust {I E} v.
Arguments SIter {I E} f.
Arguments SEmpty {I E}.
Arguments SThrow {I E} e.
Arguments SClosed {I E}.
Arguments SNever {I E}.
Arguments SCreate {I E} p.
Arguments SDefer {I E} mk.

(** Calls on a subscription; [HDrop] is the drop of the last handle the user has. *)
Inductive hcall : Type := HUnsub | HAdd (t : list nat) | HDrop.

Section Source.
  Context {X I E : Type}.
  Variable D : subscriber X I E.

  (** The subscription returned by subscribe().
      - [HInert]: crates/rx_core_subscription_inert/src/inert_subscription.rs:10
      - [HOwn]: [Subscription], crates/rx_core_common/src/subscriptions/subscription.rs:5-17;
        the teardowns of its own and the destination
      - [HShared o t d]: [SharedSubscription] made by [SharedSubscription::new],
        crates/rx_core_common/src/subscriptions/subscription_shared.rs:88-108;
        [o] is observed_unsubscribe, [d] the destination if the first finalizer of the
        shared data still owns it, [t] the shared data without that finalizer. *)
  Inductive handle : Type :=
  | HInert
  | HOwn (t : sdata) (d : st D)
  | HShared (o : bool) (t : sdata) (d : option (st D)).

  Definition step2 (s : st D) (a b : call I E) : st D * list (ev X) :=
    let '(s1, w1) := step D s a in
    let '(s2, w2) := step D s1 b in (s2, w1 ++ w2).

  (** inert_subscription.rs:13-19 [InertSubscription::new]: unsubscribes the destination
      if it is not closed; the destination is then dropped with the parameter. *)
  Definition inert (s : st D) : handle * list (ev X) :=
    (HInert, if closed D s then snd (step D s CDrop) else snd (step2 s (CN Uns) CDrop)).

  (** subscription_shared.rs:100-108 [SharedSubscription::new]. [subscription.add] gives
      the destination a teardown that unsubscribes a clone of the shared subscription.
      That teardown is not visible and is modelled as an empty one:
      - if the destination is closed the teardown runs at once and closes the shared
        subscription, which is still empty, and [shared_subscription.add(subscription)]
        finds the destination closed (teardown.rs:107-117, so it is dropped) and has
        nothing to run;
      - otherwise the destination becomes the first finalizer of the shared data, so it
        is only ever unsubscribed by the shared subscription, when observed_unsubscribe
        is set and the nested unsubscribe() does nothing. *)
  Definition into_shared (s : st D) : handle * list (ev X) :=
    let '(s1, w1) := step D s (CAdd []) in
    if closed D s1 then
      let '(_, w2) := step D s1 CDrop in (HShared true (mkSData true []) None, w1 ++ w2)
    else (HShared false (mkSData false []) (Some s1), w1).

  (** iterator_observable.rs:47-52: the loop, with the number of items taken from the
      iterator; None if it has not ended after [fuel] rounds. *)
  Fixpoint iter_loop (fuel : nat) (f : nat -> option I) (k : nat) (s : st D)
    : option (nat * st D * list (ev X)) :=
    match fuel with
    | 0 => None
    | S fuel' =>
        match f k with
        | None => Some (k, s, [])
        | Some v =>
            if closed D s then Some (S k, s, [])
            else let '(s1, w1) := step D s (CN (Nxt v)) in
                 match iter_loop fuel' f (S k) s1 with
                 | Some (n, s2, w2) => Some (n, s2, w1 ++ w2)
                 | None => None
                 end
        end
    end.

  (** the producer of create(), run on the destination; the calls it makes *)
  Fixpoint produce (p : prog I E) (s : st D) : st D * list (ev X) :=
    match p with
    | PStop => (s, [])
    | PNotify n k => let '(s1, w1) := step D s (CN n) in
                     let '(s2, w2) := produce k s1 in (s2, w1 ++ w2)
    | PAdd t k => let '(s1, w1) := step D s (CAdd t) in
                  let '(s2, w2) := produce k s1 in (s2, w1 ++ w2)
    | PAsk k => produce (k (closed D s)) s
    end.

  (** What subscribe() does: the number of items taken from an iterator, the
      subscription it returns and what became visible. [n] is how often this observable
      was subscribed to before (only deferred looks at it); None: the iterator has not
      ended within [fuel] rounds.
      - just_observable.rs:44-47, iterator_observable.rs:46-57, empty_observable.rs:27-29,
        throw_observable.rs:40-42, closed_observable.rs:33, never_observable.rs:25,
        create_observable.rs:59-61, deferred_observable.rs:49-51 *)
  Fixpoint subscribe_at (fuel : nat) (src : source I E) (n : nat) (s : st D)
    : option (nat * handle * list (ev X)) :=
    match src with
    | SJust v =>
        let '(s1, w1) := step2 s (CN (Nxt v)) (CN Cmp) in
        let '(h, w2) := inert s1 in Some (0, h, w1 ++ w2)
    | SIter f =>
        match iter_loop fuel f 0 s with
        | None => None
        | Some (k, s1, w1) =>
            let '(s2, w2) := if closed D s1 then (s1, []) else step D s1 (CN Cmp) in
            let '(h, w3) := inert s2 in Some (k, h, w1 ++ w2 ++ w3)
        end
    | SEmpty =>
        let '(s1, w1) := step D s (CN Cmp) in
        let '(h, w2) := inert s1 in Some (0, h, w1 ++ w2)
    | SThrow e =>
        let '(s1, w1) := step D s (CN (Err e)) in
        let '(h, w2) := inert s1 in Some (0, h, w1 ++ w2)
    | SClosed => let '(h, w) := inert s in Some (0, h, w)
    | SNever => Some (0, HOwn (mkSData false []) s, [])
    | SCreate p =>
        let '(s1, w1) := produce p s in
        let '(h, w2) := into_shared s1 in Some (0, h, w1 ++ w2)
    | SDefer mk => subscribe_at fuel (mk n) 0 s
    end.

  Definition subscribe (fuel : nat) (src : source I E) (n : nat)
    : option (nat * handle * list (ev X)) :=
    match subscribe_at fuel src n (s0 D) with
    | Some (k, h, w) => Some (k, h, w0 D ++ w)
    | None => None
    end.

  (** is_closed() of a subscription.
      - inert_subscription.rs:23-25
      - [Subscription] delegates to the destination (subscription.rs:8,
        crates/rx_core_macro_common/src/derive_subscription.rs:61-64)
      - subscription_shared.rs:182-189; the mutex is free *)
  Definition hclosed (h : handle) : bool :=
    match h with
    | HInert => true
    | HOwn _ d => closed D d
    | HShared o t _ => o || sd_closed t
    end.

  (** The calls.
      - inert_subscription.rs:27-29, 33-36 and 39-43
      - [Subscription]: add_teardown goes to its own teardowns (subscription.rs:7 and
        crates/rx_core_macro_common/src/derive_teardown_collection.rs:46-57); unsubscribe
        first runs its own teardowns, then unsubscribes the destination
        (derive_subscription.rs:47-51); drop unsubscribes if it is not closed
        (derive_subscription.rs:81-87) and then drops the two fields in the order of
        their declaration
      - [SharedSubscription]: add_teardown goes to the shared data; unsubscribe
        (subscription_shared.rs:191-210) does something the first time only, it unsubscribes
        the data, whose first finalizer unsubscribes and drops the destination; the drop
        of a handle (subscription_shared.rs:212-217) applies deferred notifications, of
        which there are none. Once the last handle is gone the shared data would be
        dropped, were it not for the clone in the teardown given to the destination,
        which is itself owned by the shared data: a cycle, so nothing happens. *)
  Definition hstep (h : handle) (c : hcall) : handle * list (ev X) :=
    match h with
    | HInert => (HInert, match c with HAdd t => map ETd t | _ => [] end)
    | HOwn t d =>
        match c with
        | HUnsub => let '(t', w1) := sd_unsubscribe t in
                    let '(d', w2) := step D d (CN Uns) in (HOwn t' d', w1 ++ w2)
        | HAdd l => let '(t', w) := sd_add t l in (HOwn t' d, w)
        | HDrop =>
            let '(t1, d1, w1) :=
              if closed D d then (t, d, [])
              else let '(t', w1) := sd_unsubscribe t in
                   let '(d', w2) := step D d (CN Uns) in (t', d', w1 ++ w2) in
            let '(t2, w2) := sd_unsubscribe t1 in
            let '(d2, w3) := step D d1 CDrop in (HOwn t2 d2, w1 ++ w2 ++ w3)
        end
    | HShared o t d =>
        match c with
        | HUnsub =>
            if o then (h, [])
            else if sd_closed t then (HShared true t d, [])
            else
              let w1 := match d with Some s => snd (step2 s (CN Uns) CDrop) | None => [] end in
              (HShared true (mkSData true []) None, w1 ++ map ETd (sd_fin t))
        | HAdd l => let '(t', w) := sd_add t l in (HShared o t' d, w)
        | HDrop => (h, [])
        end
    end.

  Fixpoint hrun (h : handle) (cs : list hcall) : handle * list (ev X) :=
    match cs with
    | [] => (h, [])
    | c :: cs' => let '(h1, w1) := hstep h c in
                  let '(h2, w2) := hrun h1 cs' in (h2, w1 ++ w2)
    end.

  (** Subscribing and then using the subscription: the number of items taken, whether
      the subscription is closed at the end, and everything visible. *)
  Definition session (fuel : nat) (src : source I E) (n : nat) (cs : list hcall)
    : option (nat * bool * list (ev X)) :=
    match subscribe fuel src n with
    | Some (k, h, w) => let '(h', w') := hrun h cs in Some (k, hclosed h', w ++ w')
    | None => None
    end.
End Source.
