(** Subscribers as state machines, and the end of every pipeline.

    A Rust subscriber is a value with methods next/error/complete (RxObserver),
    is_closed/unsubscribe (SubscriptionLike), add_teardown (TeardownCollection)
    and drop. It is modelled by a state type, a step function that returns the
    new state and the list of world events caused by the call, and [closed].
    No proofs in this file. *)
From Verif Require Import Base.
Set Implicit Arguments.

(** World events: the final observer is notified, the teardown [n] runs, or
    some other user callback [n] (tap) runs. *)
Inductive ev (X : Type) : Type :=
| EObs (x : X)
| ETd (n : nat)
| EEff (n : nat).
Arguments EObs {X} x.
Arguments ETd {X} n.
Arguments EEff {X} n.

(** The four signals, models [SubscriberNotification] /
    crates/rx_core_common/src/signals/notification_subscriber.rs:14-27. *)
Inductive ncall (I E : Type) : Type :=
| Nxt (i : I)
| Err (e : E)
| Cmp
| Uns.
Arguments Nxt {I E} i.
Arguments Err {I E} e.
Arguments Cmp {I E}.
Arguments Uns {I E}.

(** All calls; a teardown is the list of the ids of the callbacks it runs
    ([] models an empty [Teardown], crates/rx_core_common/src/subscriptions/teardown.rs:8-50). *)
Inductive call (I E : Type) : Type :=
| CN (n : ncall I E)
| CAdd (t : list nat)
| CDrop.
Arguments CN {I E} n.
Arguments CAdd {I E} t.
Arguments CDrop {I E}.

Record subscriber (X I E : Type) : Type := mkSub {
  st : Type;
  s0 : st;                       (* state after construction *)
  w0 : list (ev X);              (* what construction made visible *)
  step : st -> call I E -> st * list (ev X);
  closed : st -> bool            (* SubscriptionLike::is_closed *)
}.

(** Run a call history. *)
Fixpoint run_from {X I E} (S : subscriber X I E) (s : st S) (cs : list (call I E))
  : st S * list (ev X) :=
  match cs with
  | [] => (s, [])
  | c :: cs' =>
      let '(s1, w1) := step S s c in
      let '(s2, w2) := run_from S s1 cs' in
      (s2, w1 ++ w2)
  end.

Definition final {X I E} (S : subscriber X I E) (cs : list (call I E)) : st S :=
  fst (run_from S (s0 S) cs).

(** Everything visible from construction on. *)
Definition run {X I E} (S : subscriber X I E) (cs : list (call I E)) : list (ev X) :=
  w0 S ++ snd (run_from S (s0 S) cs).

(** ** SubscriptionData
    crates/rx_core_common/src/subscriptions/subscription_data.rs:17-20:
    a closed flag and a vector of finalizers. *)
Record sdata : Type := mkSData { sd_closed : bool; sd_fin : list nat }.

(** subscription_data.rs:50-58 [SubscriptionData::unsubscribe]: the flag is set
    first, then the finalizers are drained in insertion order. *)
Definition sd_unsubscribe {X} (d : sdata) : sdata * list (ev X) :=
  if sd_closed d then (d, [])
  else (mkSData true [], map ETd (sd_fin d)).

(** subscription_data.rs:62-70 [SubscriptionData::add_teardown]. *)
Definition sd_add {X} (d : sdata) (t : list nat) : sdata * list (ev X) :=
  if sd_closed d then (d, map ETd t)
  else (mkSData false (sd_fin d ++ t), []).

(** ** ObserverSubscriber over a recording observer
    crates/rx_core_common/src/subscribers/subscriber_observer.rs:35-86. The
    observer is passive: it records its notifications as [EObs]. *)
Definition sink_next {O F} (d : sdata) (o : O) : sdata * list (ev (notif O F)) :=
  if sd_closed d then (d, []) else (d, [EObs (NNext o)]).

Definition sink_error {O F} (d : sdata) (e : F) : sdata * list (ev (notif O F)) :=
  if sd_closed d then (d, [])
  else let '(d', w) := sd_unsubscribe d in (d', EObs (NError e) :: w).

Definition sink_complete {O F} (d : sdata) : sdata * list (ev (notif O F)) :=
  if sd_closed d then (d, [])
  else let '(d', w) := sd_unsubscribe d in (d', EObs NComplete :: w).

(** Drop: the derived Drop of the subscriber unsubscribes if not closed, then the
    Drop of the SubscriptionData field does the same (a no-op by then);
    subscription_data.rs:84-90. *)
Definition sink_drop {X} (d : sdata) : sdata * list (ev X) :=
  if sd_closed d then (d, []) else sd_unsubscribe d.

Definition sink_step {O F} (d : sdata) (c : call O F) : sdata * list (ev (notif O F)) :=
  match c with
  | CN (Nxt o) => sink_next d o
  | CN (Err e) => sink_error d e
  | CN Cmp => sink_complete d
  | CN Uns => sd_unsubscribe d
  | CAdd t => sd_add d t
  | CDrop => sink_drop d
  end.

Definition sink (O F : Type) : subscriber (notif O F) O F :=
  {| st := sdata; s0 := mkSData false []; w0 := [];
     step := @sink_step O F; closed := sd_closed |}.

(** ** Operator subscribers
    An operator's subscriber owns its destination and reacts to each call with a
    sequence of actions on it: call it, call it only if it does not report
    closed at that point, or run a user callback. The reaction can look at the
    destination's [is_closed] on entry (the [bool]). [oclosed] is the
    subscriber's own closed flag where it has one; its [is_closed] is then
    [oclosed || destination.is_closed()]. Everything delegates
    add_teardown to the destination ([rx_delegate_teardown_collection]). *)
Inductive act (O F : Type) : Type :=
| Do (n : ncall O F)
| IfOpen (n : ncall O F)
| Emit (n : nat).
Arguments Do {O F} n.
Arguments IfOpen {O F} n.
Arguments Emit {O F} n.

Record trans (I E O F : Type) : Type := mkTrans {
  oq : Type;
  o_ctor : list (act O F);                (* actions on the destination at construction *)
  o_init : bool -> oq;                    (* gets destination.is_closed() after [o_ctor] *)
  oclosed : oq -> bool;
  on_next : oq -> bool -> I -> oq * list (act O F);
  on_error : oq -> bool -> E -> oq * list (act O F);
  on_complete : oq -> bool -> oq * list (act O F);
  on_unsub : oq -> bool -> oq * list (act O F);
  on_drop : oq -> bool -> oq * list (act O F)
}.

Section Denote.
  Context {X I E O F : Type}.
  Variable T : trans I E O F.
  Variable D : subscriber X O F.

  Definition exec_act (d : st D) (a : act O F) : st D * list (ev X) :=
    match a with
    | Do n => step D d (CN n)
    | IfOpen n => if closed D d then (d, []) else step D d (CN n)
    | Emit n => (d, [EEff n])
    end.

  Fixpoint exec_acts (d : st D) (l : list (act O F)) : st D * list (ev X) :=
    match l with
    | [] => (d, [])
    | a :: l' =>
        let '(d1, w1) := exec_act d a in
        let '(d2, w2) := exec_acts d1 l' in
        (d2, w1 ++ w2)
    end.

  Definition den_ctor : st D * list (ev X) := exec_acts (s0 D) (o_ctor T).

  Definition den_n (s : oq T * st D) (n : ncall I E) : (oq T * st D) * list (ev X) :=
    let '(q, d) := s in
    let '(q', l) := match n with
                    | Nxt i => on_next T q (closed D d) i
                    | Err e => on_error T q (closed D d) e
                    | Cmp => on_complete T q (closed D d)
                    | Uns => on_unsub T q (closed D d)
                    end in
    let '(d', w) := exec_acts d l in
    ((q', d'), w).

  (** Drop: first the operator's own Drop impl, then the destination field is
      dropped. *)
  Definition den_drop (s : oq T * st D) : (oq T * st D) * list (ev X) :=
    let '(q, d) := s in
    let '(q', l) := on_drop T q (closed D d) in
    let '(d1, w1) := exec_acts d l in
    let '(d2, w2) := step D d1 CDrop in
    ((q', d2), w1 ++ w2).

  Definition den_step (s : oq T * st D) (c : call I E) : (oq T * st D) * list (ev X) :=
    match c with
    | CN n => den_n s n
    | CAdd t => let '(d', w) := step D (snd s) (CAdd t) in ((fst s, d'), w)
    | CDrop => den_drop s
    end.

  Definition denote : subscriber X I E :=
    {| st := oq T * st D;
       s0 := (o_init T (closed D (fst den_ctor)), fst den_ctor);
       w0 := w0 D ++ snd den_ctor;
       step := den_step;
       closed := fun s => oclosed T (fst s) || closed D (snd s) |}.
End Denote.
