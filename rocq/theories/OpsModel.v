(** The synchronous operators, one definition per operator subscriber.
    All paths below are under /repo/crates. No proofs in this file.

    Unless a definition says otherwise the Rust struct carries
    [rx_delegate_subscription_like_to_destination] and
    [rx_delegate_teardown_collection]: is_closed and unsubscribe go straight to
    the destination (rx_core_macro_common/src/derive_subscription.rs:25-71) and the
    derived Drop unsubscribes when not closed (derive_subscription.rs:76-91).
    [usize] counters are [nat] (no saturation/overflow). *)
From Verif Require Import Base SubscrModel.
Set Implicit Arguments.

(** derive_subscription.rs:58-69 with teardown field = destination field. *)
Definition fwd_unsub {O F Q : Type} (q : Q) (_ : bool) : Q * list (act O F) := (q, [Do Uns]).
(** derive_subscription.rs:82-90. *)
Definition fwd_drop {O F Q : Type} (q : Q) (b : bool) : Q * list (act O F) :=
  (q, if b then [] else [Do Uns]).
(** [error(e) => destination.error(e)], [complete() => destination.complete()]. *)
Definition fwd_error {O E Q : Type} (q : Q) (_ : bool) (e : E) : Q * list (act O E) := (q, [Do (Err e)]).
Definition fwd_complete {O F Q : Type} (q : Q) (_ : bool) : Q * list (act O F) := (q, [Do Cmp]).

(** A subscriber that delegates SubscriptionLike/TeardownCollection and has no
    constructor effects. *)
Definition simple_trans {I E O F : Type} (Q : Type) (q0 : Q)
  (n : Q -> bool -> I -> Q * list (act O F))
  (e : Q -> bool -> E -> Q * list (act O F))
  (c : Q -> bool -> Q * list (act O F)) : trans I E O F :=
  {| oq := Q; o_ctor := []; o_init := fun _ => q0;
     oclosed := fun _ => false;
     on_next := n; on_error := e; on_complete := c;
     on_unsub := fwd_unsub; on_drop := fwd_drop |}.

(** rx_core_operator_map/src/map_subscriber.rs:55-67 *)
Definition t_map {A B E} (f : A -> B) : trans A E B E :=
  simple_trans tt (fun q _ a => (q, [Do (Nxt (f a))])) fwd_error fwd_complete.

(** rx_core_operator_filter/src/filter_subscriber.rs:40-55; [index] is passed to
    the predicate and incremented after it. *)
Definition t_filter {A E} (p : A -> nat -> bool) : trans A E A E :=
  simple_trans 0 (fun i _ a => (i + 1, if p a i then [Do (Nxt a)] else [])) fwd_error fwd_complete.

(** rx_core_operator_skip/src/skip_subscriber.rs:32-48 *)
Definition t_skip {A E} (n : nat) : trans A E A E :=
  simple_trans n (fun c _ a => if c =? 0 then (c, [Do (Nxt a)]) else (c - 1, []))
    fwd_error fwd_complete.

(** rx_core_operator_take/src/take_subscriber.rs:24-92. State: count, own closed
    flag. [is_closed] is [closed || destination.is_closed()]. In [next] the
    check [self.count == 0 && !self.is_closed()] after the push is the
    [IfOpen] when the own flag is not set; [complete] then sets the own flag.
    Simplified: the flag is also set when the n-th value made the destination
    close itself (the code leaves it unset, [is_closed] is true either way). *)
Definition t_take {A E} (n : nat) : trans A E A E :=
  {| oq := nat * bool; 
     o_ctor := if n =? 0 then [IfOpen Cmp] else [];          (* :25-27 *)
     o_init := fun b => (n, b);                              (* :29-35 *)
     oclosed := snd;
     on_next := fun q _ a =>
       let '(c, cl) := q in
       if 0 <? c then                                        (* :44 *)
         ((c - 1, if c - 1 =? 0 then true else cl),
          Do (Nxt a) :: (if (c - 1 =? 0) && negb cl then [IfOpen Cmp] else []))
       else (q, []);
     on_error := fun q _ e => ((fst q, true), [Do (Err e)]); (* :55-58 *)
     on_complete := fun q _ => ((fst q, true), [Do Cmp]);    (* :61-64 *)
     on_unsub := fun q b => ((fst q, true), if snd q || b then [] else [Do Uns]); (* :77-82 *)
     on_drop := fun q b => ((fst q, true), if snd q || b then [] else [Do Uns])   (* :90-92 *)
  |}.

(** rx_core_operator_first/src/first_subscriber.rs:8-16 *)
Inductive first_error (E : Type) : Type := FirstNoNext | FirstUpstream (e : E).
Arguments FirstNoNext {E}. Arguments FirstUpstream {E} e.

(** rx_core_operator_first/src/first_subscriber.rs:54-74 *)
Definition t_first {A E} : trans A E A (first_error E) :=
  simple_trans false
    (fun seen _ a => if seen then (seen, []) else (true, [Do (Nxt a); Do Cmp]))
    (fun seen _ e => (seen, [Do (Err (FirstUpstream e))]))
    (fun seen _ => (seen, if seen then [] else [Do (Err FirstNoNext)])).

(** rx_core_operator_element_at/src/element_at_operator_error.rs:5-15 *)
Inductive element_at_error (E : Type) : Type :=
| IndexOutOfRange (requested_index observed_nexts : nat)
| ElementAtUpstream (e : E).
Arguments IndexOutOfRange {E} requested_index observed_nexts.
Arguments ElementAtUpstream {E} e.

(** rx_core_operator_element_at/src/element_at_subscriber.rs:43-141. State:
    nexts_observed and own closed flag; the default provider is a value. *)
Definition t_element_at {A E} (idx : nat) (def : option A) : trans A E A (element_at_error E) :=
  {| oq := nat * bool; o_ctor := [];
     o_init := fun b => (0, b);
     oclosed := snd;
     on_next := fun q b a =>
       let '(n, cl) := q in
       if cl || b then (q, [])
       else if n =? idx then ((n, true), [Do (Nxt a); Do Cmp])
       else ((n + 1, cl), []);
     on_error := fun q b e =>
       let '(n, cl) := q in
       if cl || b then (q, []) else ((n, true), [Do (Err (ElementAtUpstream e))]);
     on_complete := fun q b =>
       let '(n, cl) := q in
       if cl || b then (q, [])
       else match def with
            | Some d => ((n, true), [Do (Nxt d); Do Cmp])
            | None => ((n, true), [Do (Err (IndexOutOfRange idx n))])
            end;
     on_unsub := fun q b => ((fst q, true), if snd q || b then [] else [Do Uns]);
     on_drop := fun q b => ((fst q, true), if snd q || b then [] else [Do Uns])
  |}.

(** rx_core_operator_find/src/find_operator_error.rs:5-15 and
    rx_core_operator_find_index/src/find_index_operator_error.rs:5-15 (same shape) *)
Inductive find_error (E : Type) : Type := FindNoNext | FindNoMatch | FindUpstream (e : E).
Arguments FindNoNext {E}. Arguments FindNoMatch {E}. Arguments FindUpstream {E} e.

(** rx_core_operator_find/src/find_subscriber.rs:51-73; state: match_observed, next_observed *)
Definition t_find {A E} (p : A -> bool) : trans A E A (find_error E) :=
  simple_trans (false, false)
    (fun q _ a =>
       let '(m, _) := q in
       if negb m && p a then ((true, true), [Do (Nxt a); Do Cmp]) else ((m, true), []))
    (fun q _ e => (q, [Do (Err (FindUpstream e))]))
    (fun q _ =>
       let '(m, n) := q in
       (q, if negb n then [Do (Err FindNoNext)]
           else if negb m then [Do (Err FindNoMatch)] else [])).

(** rx_core_operator_find_index/src/find_index_subscriber.rs:58-85; state:
    match_observed, nexts_observed *)
Definition t_find_index {A E} (p : A -> bool) : trans A E nat (find_error E) :=
  simple_trans (false, 0)
    (fun q _ a =>
       let '(m, n) := q in
       if negb m && p a then ((true, n + 1), [Do (Nxt n); Do Cmp]) else ((m, n + 1), []))
    (fun q _ e => (q, [Do (Err (FindUpstream e))]))
    (fun q _ =>
       let '(m, n) := q in
       (q, if n =? 0 then [Do (Err FindNoNext)]
           else if negb m then [Do (Err FindNoMatch)] else [])).

(** rx_core_operator_is_empty/src/is_empty_subscriber.rs:40-58 *)
Definition t_is_empty {A E} : trans A E bool E :=
  simple_trans tt
    (fun q _ _ => (q, [Do (Nxt false); IfOpen Cmp]))
    fwd_error
    (fun q _ => (q, [Do (Nxt true); IfOpen Cmp])).

(** rx_core_operator_scan/src/scan_subscriber.rs:56-69 *)
Definition t_scan {A B E} (f : B -> A -> B) (seed : B) : trans A E B E :=
  simple_trans seed (fun acc _ a => (f acc a, [Do (Nxt (f acc a))])) fwd_error fwd_complete.

(** rx_core_operator_reduce/src/reduce_subscriber.rs:57-70 *)
Definition t_reduce {A B E} (f : B -> A -> B) (seed : B) : trans A E B E :=
  simple_trans seed (fun acc _ a => (f acc a, [])) fwd_error
    (fun acc _ => (acc, [Do (Nxt acc); Do Cmp])).

(** rx_core_operator_count/src/count_subscriber.rs:49-62 *)
Definition t_count {A E} : trans A E nat E :=
  simple_trans 0 (fun c _ _ => (c + 1, [])) fwd_error
    (fun c _ => (c, [Do (Nxt c); Do Cmp])).

(** rx_core_operator_enumerate/src/enumerate_subscriber.rs:42-56 *)
Definition t_enumerate {A E} : trans A E (A * nat) E :=
  simple_trans 0 (fun i _ a => (i + 1, [Do (Nxt (a, i))])) fwd_error fwd_complete.

(** rx_core_operator_pairwise/src/pairwise_subscriber.rs:42-56; the output
    array of two is a pair *)
Definition t_pairwise {A E} : trans A E (A * A) E :=
  simple_trans None
    (fun last _ a => (Some a, match last with Some l => [Do (Nxt (l, a))] | None => [] end))
    fwd_error fwd_complete.

(** rx_core_operator_buffer_count/src/buffer_count_subscriber.rs:41-76. The
    size is NonZero: [size = S k]. [eject] is eject_buffer (:41-45). *)
Definition eject {A E} (b : option (list A)) : list (act (list A) E) :=
  match b with Some l => [Do (Nxt l)] | None => [] end.
Definition t_buffer_count {A E} (k : nat) : trans A E (list A) E :=
  simple_trans None
    (fun b _ a =>
       let b' := match b with Some l => l ++ [a] | None => [a] end in
       if length b' =? S k then (None, eject (Some b')) else (Some b', []))
    fwd_error
    (fun b _ => (None, eject b ++ [Do Cmp])).

(** rx_core_operator_start_with/src/start_with_operator.rs:49-56: pushes into the
    destination and returns the destination itself *)
Definition sub_start_with {X A E} (a : A) (D : subscriber X A E) : subscriber X A E :=
  {| st := st D; s0 := fst (step D (s0 D) (CN (Nxt a)));
     w0 := w0 D ++ snd (step D (s0 D) (CN (Nxt a))); step := step D; closed := closed D |}.

(** rx_core_operator_end_with/src/end_with_subscriber.rs:38-54 *)
Definition t_end_with {A E} (a : A) : trans A E A E :=
  simple_trans (Some a)
    (fun q _ x => (q, [Do (Nxt x)])) fwd_error
    (fun q _ => (None, match q with Some l => [Do (Nxt l); Do Cmp] | None => [Do Cmp] end)).

(** rx_core_operator_materialize/src/materialize_subscriber.rs:37-52 *)
Definition t_materialize {A E} : trans A E (notif A E) Empty_set :=
  simple_trans tt
    (fun q _ a => (q, [Do (Nxt (NNext a))]))
    (fun q _ e => (q, [Do (Nxt (NError e)); Do Cmp]))
    (fun q _ => (q, [Do (Nxt NComplete); Do Cmp])).

(** rx_core_operator_dematerialize/src/dematerialize_subscriber.rs:31-57; its
    [error] is unreachable because InError is Never *)
Definition t_dematerialize {A E} : trans (notif A E) Empty_set A E :=
  simple_trans tt
    (fun q _ n => (q, match n with
                      | NNext a => [IfOpen (Nxt a)]
                      | NError e => [IfOpen (Err e)]
                      | NComplete => [IfOpen Cmp]
                      end))
    (fun q _ e => match e : Empty_set with end)
    (fun q _ => (q, [IfOpen Cmp])).

(** rx_core_operator_into_result/src/into_result_subscriber.rs:43-55 ([A + E]
    is [Result]); note that [error] does not end the destination *)
Definition t_into_result {A E} : trans A E (A + E) Empty_set :=
  simple_trans tt
    (fun q _ a => (q, [Do (Nxt (inl a))]))
    (fun q _ e => (q, [Do (Nxt (inr e))]))
    fwd_complete.

(** rx_core_operator_lift_option/src/lift_option_subscriber.rs:31-45 *)
Definition t_lift_option {A E} : trans (option A) E A E :=
  simple_trans tt
    (fun q _ o => (q, match o with Some a => [Do (Nxt a)] | None => [] end))
    fwd_error fwd_complete.

(** rx_core_operator_lift_result/src/lift_result_subscriber.rs:48-64; InError is Never *)
Definition t_lift_result {A E} : trans (A + E) Empty_set A E :=
  simple_trans tt
    (fun q _ r => (q, match r with inl a => [Do (Nxt a)] | inr e => [Do (Err e)] end))
    (fun q _ e => match e : Empty_set with end)
    fwd_complete.

(** rx_core_operator_map_error/src/map_error_subscriber.rs:56-73; state: whether
    the mapper (an Option that is taken) is still there *)
Definition t_map_error {A E F} (f : E -> F) : trans A E A F :=
  simple_trans true
    (fun q _ a => (q, [Do (Nxt a)]))
    (fun q b e => if negb b && q then (false, [Do (Err (f e))]) else (q, []))
    fwd_complete.

(** rx_core_operator_map_into/src/map_into_subscriber.rs:51-63 *)
Definition t_map_into {A B E F} (f : A -> B) (g : E -> F) : trans A E B F :=
  simple_trans tt
    (fun q _ a => (q, [Do (Nxt (f a))])) (fun q _ e => (q, [Do (Err (g e))])) fwd_complete.

(** rx_core_operator_map_never/src/map_never_{next,error,both}_subscriber.rs:30-41
    (the unreachable arms have an uninhabited argument) *)
Definition t_map_never_next {B E} : trans Empty_set E B E :=
  simple_trans tt (fun q _ a => match a : Empty_set with end) fwd_error fwd_complete.
Definition t_map_never_error {A F} : trans A Empty_set A F :=
  simple_trans tt (fun q _ a => (q, [Do (Nxt a)])) (fun q _ e => match e : Empty_set with end) fwd_complete.
Definition t_map_never_both {B F} : trans Empty_set Empty_set B F :=
  simple_trans tt (fun q _ a => match a : Empty_set with end) (fun q _ e => match e : Empty_set with end) fwd_complete.

(** rx_core_operator_error_boundary/src/error_boundary_subscriber.rs:32-43 *)
Definition t_error_boundary {A} : trans A Empty_set A Empty_set :=
  simple_trans tt (fun q _ a => (q, [Do (Nxt a)])) (fun q _ e => match e : Empty_set with end) fwd_complete.

(** rx_core_operator_identity/src/identity_subscriber.rs:7-25 (all delegated) *)
Definition t_identity {A E} : trans A E A E :=
  simple_trans tt (fun q _ a => (q, [Do (Nxt a)])) fwd_error fwd_complete.

(** rx_core_operator_tap_next/src/tap_next_subscriber.rs:49-62. The callback is
    visible as the effect [f a]. *)
Definition t_tap_next {A E} (f : A -> nat) : trans A E A E :=
  simple_trans tt (fun q _ a => (q, [Emit (f a); Do (Nxt a)])) fwd_error fwd_complete.

(** rx_core_operator_tap/src/tap_subscriber.rs:46-61 with
    tap_operator.rs:31-35. State: whether the tap's own ObserverSubscriber is
    closed. Simplified to the first subscription made through the operator value:
    the tap destination is shared by all its subscriptions (see TapShared.v). *)
Definition t_tap {A E} (fn : A -> nat) (fe : E -> nat) (fc : nat) : trans A E A E :=
  simple_trans false
    (fun q _ a => (q, (if q then [] else [Emit (fn a)]) ++ [Do (Nxt a)]))
    (fun q _ e => (true, (if q then [] else [Emit (fe e)]) ++ [Do (Err e)]))
    (fun q _ => (true, (if q then [] else [Emit fc]) ++ [Do Cmp])).

(** rx_core_operator_on_next/src/on_next_subscriber.rs:59-74. The callback may
    signal the destination itself; it is modelled by the signals it sends and its
    result. Simplified: it does not add teardowns and does not inspect the
    destination. *)
Definition t_on_next {A E} (f : A -> list (ncall A E) * bool) : trans A E A E :=
  simple_trans tt
    (fun q _ a => (q, map (fun n => Do n) (fst (f a)) ++ (if snd (f a) then [IfOpen (Nxt a)] else [])))
    fwd_error fwd_complete.

(** rx_core_operator_on_subscribe/src/on_subscribe_operator.rs:52-59: signals sent
    at subscription, then the destination itself is returned *)
Definition sub_on_subscribe {X A E} (l : list (ncall A E)) (D : subscriber X A E) : subscriber X A E :=
  {| st := st D; s0 := fst (run_from D (s0 D) (map (fun n => CN n) l));
     w0 := w0 D ++ snd (run_from D (s0 D) (map (fun n => CN n) l)); step := step D; closed := closed D |}.

(** rx_core_operator_finalize/src/finalize_operator.rs:52-59 *)
Definition sub_finalize {X A E} (k : nat) (D : subscriber X A E) : subscriber X A E :=
  {| st := st D; s0 := fst (step D (s0 D) (CAdd [k]));
     w0 := w0 D ++ snd (step D (s0 D) (CAdd [k])); step := step D; closed := closed D |}.

(** ** Well-typed operators *)
Inductive oper : Type -> Type -> Type -> Type -> Type :=
| OMap A B E (f : A -> B) : oper A E B E
| OFilter A E (p : A -> nat -> bool) : oper A E A E
| OSkip A E (n : nat) : oper A E A E
| OTake A E (n : nat) : oper A E A E
| OFirst A E : oper A E A (first_error E)
| OElementAt A E (i : nat) (def : option A) : oper A E A (element_at_error E)
| OFind A E (p : A -> bool) : oper A E A (find_error E)
| OFindIndex A E (p : A -> bool) : oper A E nat (find_error E)
| OIsEmpty A E : oper A E bool E
| OScan A B E (f : B -> A -> B) (seed : B) : oper A E B E
| OReduce A B E (f : B -> A -> B) (seed : B) : oper A E B E
| OCount A E : oper A E nat E
| OEnumerate A E : oper A E (A * nat) E
| OPairwise A E : oper A E (A * A) E
| OBufferCount A E (k : nat) : oper A E (list A) E     (* size S k *)
| OStartWith A E (a : A) : oper A E A E
| OEndWith A E (a : A) : oper A E A E
| OMaterialize A E : oper A E (notif A E) Empty_set
| ODematerialize A E : oper (notif A E) Empty_set A E
| OIntoResult A E : oper A E (A + E) Empty_set
| OLiftOption A E : oper (option A) E A E
| OLiftResult A E : oper (A + E) Empty_set A E
| OMapError A E F (f : E -> F) : oper A E A F
| OMapInto A B E F (f : A -> B) (g : E -> F) : oper A E B F
| OMapNeverNext B E : oper Empty_set E B E
| OMapNeverError A F : oper A Empty_set A F
| OMapNeverBoth B F : oper Empty_set Empty_set B F
| OErrorBoundary A : oper A Empty_set A Empty_set
| OIdentity A E : oper A E A E
| OTapNext A E (f : A -> nat) : oper A E A E
| OTap A E (fn : A -> nat) (fe : E -> nat) (fc : nat) : oper A E A E
| OOnNext A E (f : A -> list (ncall A E) * bool) : oper A E A E
| OOnSubscribe A E (l : list (ncall A E)) : oper A E A E
| OFinalize A E (k : nat) : oper A E A E
(* rx_core_operator_composite/src/composite_operator.rs:46-55 and
   composite_subscriber.rs:11-31: the nested subscriber wrapped in a delegating one *)
| OComposite I E M G O F (a : oper I E M G) (b : oper M G O F) : oper I E O F
(* rx_core_common/src/operators/option_operator.rs, option_subscriber.rs:27-91:
   an optional operator, delegating to the inner subscriber resp. the destination *)
| OOptSome A E (o : oper A E A E) : oper A E A E
| OOptNone A E : oper A E A E.

(** [ComposableOperator::operator_subscribe]. *)
Fixpoint op_sub {X I E O F} (o : oper I E O F) : subscriber X O F -> subscriber X I E :=
  match o in oper I E O F return subscriber X O F -> subscriber X I E with
  | OMap _ f => denote (t_map f)
  | OFilter _ p => denote (t_filter p)
  | OSkip _ _ n => denote (t_skip n)
  | OTake _ _ n => denote (t_take n)
  | OFirst _ _ => denote t_first
  | OElementAt _ i d => denote (t_element_at i d)
  | OFind _ p => denote (t_find p)
  | OFindIndex _ p => denote (t_find_index p)
  | OIsEmpty _ _ => denote t_is_empty
  | OScan _ f s => denote (t_scan f s)
  | OReduce _ f s => denote (t_reduce f s)
  | OCount _ _ => denote t_count
  | OEnumerate _ _ => denote t_enumerate
  | OPairwise _ _ => denote t_pairwise
  | OBufferCount _ _ k => denote (t_buffer_count k)
  | OStartWith _ a => sub_start_with a
  | OEndWith _ a => denote (t_end_with a)
  | OMaterialize _ _ => denote t_materialize
  | ODematerialize _ _ => denote t_dematerialize
  | OIntoResult _ _ => denote t_into_result
  | OLiftOption _ _ => denote t_lift_option
  | OLiftResult _ _ => denote t_lift_result
  | OMapError _ f => denote (t_map_error f)
  | OMapInto f g => denote (t_map_into f g)
  | OMapNeverNext _ _ => denote t_map_never_next
  | OMapNeverError _ _ => denote t_map_never_error
  | OMapNeverBoth _ _ => denote t_map_never_both
  | OErrorBoundary _ => denote t_error_boundary
  | OIdentity _ _ => denote t_identity
  | OTapNext _ f => denote (t_tap_next f)
  | OTap fn fe fc => denote (t_tap fn fe fc)
  | OOnNext f => denote (t_on_next f)
  | OOnSubscribe l => sub_on_subscribe l
  | OFinalize _ _ k => sub_finalize k
  | OComposite a b => fun D => denote t_identity (op_sub a (op_sub b D))
  | OOptSome o => fun D => denote t_identity (op_sub o D)
  | OOptNone _ _ => fun D => denote t_identity D
  end.

(** ** Pipelines
    rx_core_common/src/pipe/pipe_observable.rs:37-54: [Pipe::subscribe] passes
    [operator.operator_subscribe(destination.upgrade())] to its source; a chain of
    [.op1().op2()...] therefore hands the source the nested subscriber below.
    Upgrading a subscriber is the identity (upgradeable_observer.rs:30-40). *)
Inductive pipe : Type -> Type -> Type -> Type -> Type :=
| PNil I E : pipe I E I E
| PCons I E M G O F (o : oper I E M G) (p : pipe M G O F) : pipe I E O F.
Arguments PNil {I E}.

Fixpoint pipe_sub {X I E O F} (p : pipe I E O F) : subscriber X O F -> subscriber X I E :=
  match p in pipe I E O F return subscriber X O F -> subscriber X I E with
  | PNil => fun D => D
  | PCons o p' => fun D => op_sub o (pipe_sub p' D)
  end.

(** The whole thing: a pipeline subscribed with a plain observer, which is
    upgraded to an [ObserverSubscriber]. *)
Definition head {I E O F} (p : pipe I E O F) : subscriber (notif O F) I E :=
  pipe_sub p (sink O F).

(** rx_core_operator_filter_map/src/filter_map_operator.rs:62-71 *)
Definition OFilterMap {A B E} (f : A -> option B) : oper A E B E :=
  OComposite (@OMap A (option B) E f) (@OLiftOption B E).
